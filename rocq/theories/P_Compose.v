(** Tools for computing what the algorithms of [algorithms/graph.rs] return on a graph whose
    vertices and edges are known: degeneracy from an elimination rank, components from classes. *)
From Verif Require Import Base Spec M_Graph M_Iterators M_EditGraph M_Algorithms S_Graph
  P_EditGraph P_EditGraph2 T_EditGraph T_Algorithms.

Lemma argmax_list (ρ : N → N) (l : list N) : l ≠ [] → ∃ v, v ∈ l ∧ ∀ u, u ∈ l → (ρ u <= ρ v)%N.
Proof.
  induction l as [|a l IH]; [done|]. intros _. destruct (decide (l = [])) as [->|Hl].
  - exists a. split; [set_solver|]. intros u ->%elem_of_list_singleton. lia.
  - destruct (IH Hl) as (v & Hv & Hm). destruct (decide (ρ v <= ρ a)%N).
    + exists a. split; [set_solver|]. intros u [->|Hu]%elem_of_cons; [lia|]. pose proof (Hm u Hu). lia.
    + exists v. split; [set_solver|]. intros u [->|Hu]%elem_of_cons; [lia|]. auto.
Qed.
Lemma argmax_set (ρ : N → N) (X : gset N) : X ≠ ∅ → ∃ v, v ∈ X ∧ ∀ u, u ∈ X → (ρ u <= ρ v)%N.
Proof.
  intros HX. destruct (argmax_list ρ (elements X)) as (v & Hv & Hm).
  - intros E. apply HX. by apply elements_empty_inv in E; apply leibniz_equiv.
  - exists v. split; [by apply elem_of_elements|]. intros u Hu. apply Hm. by apply elem_of_elements.
Qed.

(** If every vertex has at most [k] neighbours of rank at most its own, no subgraph has minimum degree above [k]. *)
Lemma md_rank (G : graph) (ρ : N → N) (L : N → list N) k H j : H ≠ ∅ → min_degree G H j →
  (∀ v u, v ∈ H → u ∈ H → adj G v u → (ρ u <= ρ v)%N → u ∈ L v) → (∀ v, length (L v) ≤ k) → j ≤ k.
Proof.
  intros HH Hm HL Hk. destruct (argmax_set ρ H HH) as (v & Hv & Hmax).
  destruct (Hm v Hv) as (_ & l & Hnd & Hj & Hl). etransitivity; [exact Hj|]. etransitivity; [|apply (Hk v)].
  apply submseteq_length, NoDup_submseteq; [done|]. intros u Hu. destruct (Hl u Hu) as [? ?]. apply HL; auto.
Qed.

Section tools.
Context {Hi : HashIter}.

Lemma up_ge (G : graph) lo up order core H k : graph_wf G → loopless G → degeneracy G = Ok (lo, up, order, core) →
  H ≠ ∅ → min_degree G H k → k ≤ 129 → k ≤ up.
Proof using Hi.
  intros Hwf Hl Hd HH Hm Hk. apply set_choose_L in HH as (v & Hv). destruct (Hm v Hv) as [Hvv _].
  destruct (C23_degeneracy_order G Hwf Hl) as (lo' & up' & o' & c' & Hd' & _ & Ho & Hc). rewrite Hd in Hd'. injection Hd' as <- <- <- <-.
  apply Hc in Hvv as Hs. destruct Hs as (c & Hcv).
  destruct (C24_core_maximal G lo up order core v c H k Hwf Hl Hd Hcv Hv Hm) as [Hsm _].
  destruct (C24_left_degree_partial G lo up order core v c [] Hwf Hl Hd Hcv) as [Hcu _]; [split; [constructor|set_solver]|].
  destruct (decide (c ≤ 129)); [pose proof (Hsm ltac:(done)); lia|lia].
Qed.

Lemma degeneracy_value (G : graph) H k : graph_wf G → loopless G → H ≠ ∅ → min_degree G H k → k ≤ 129 →
  (∀ H' j, H' ≠ ∅ → min_degree G H' j → j ≤ k) → ∃ order core, degeneracy G = Ok (k, k, order, core).
Proof using Hi.
  intros Hwf Hl HH Hm Hk Hub. destruct (C23_degeneracy_order G Hwf Hl) as (lo & up & o & c & Hd & _).
  assert (∃ v, vtx G v) as Hv by (apply set_choose_L in HH as (v & Hv); exists v; apply (Hm v Hv)).
  pose proof (up_ge G lo up o c H k Hwf Hl Hd HH Hm Hk).
  destruct (C24_lower_bound G lo up o c Hwf Hl Hd Hv) as (_ & H' & HH' & Hm' & _).
  assert (up = k) as -> by (apply Nat.le_antisymm; [by eapply Hub|done]).
  destruct (C24_exact_small G lo k o c Hwf Hl Hd Hv Hk) as (-> & _). eauto.
Qed.

Lemma components_value (G : graph) (Xs : list (gset N)) : graph_wf G → NoDup Xs → (∀ X, X ∈ Xs → X ≠ ∅) →
  (∀ X u v, X ∈ Xs → u ∈ X → v ∈ X ↔ rtc (adj G) u v) → (∀ v, vtx G v ↔ ∃ X, X ∈ Xs ∧ v ∈ X) →
  ∃ cs, components G = Ok cs ∧ cs ≡ₚ Xs.
Proof using Hi.
  intros Hwf Hnd Hne Hcl Hcov. destruct (C22_components G Hwf) as (cs & Hok & Hnd' & Hne' & Hdj & Hv & Hr).
  assert (∀ X Y u, X ∈ Xs → Y ∈ cs → u ∈ X → u ∈ Y → X = Y) as Hsame.
  { intros X Y u HX HY HuX HuY. assert (vtx G u) as Hu by (apply Hv; eauto). apply set_eq. intros v.
    rewrite (Hcl X u v HX HuX). rewrite <- (Hr u v Hu). split; [|by eauto].
    intros (Z & HZ & HuZ & HvZ). destruct (decide (Z = Y)) as [->|Hn]; [done|]. destruct (Hdj Z Y HZ HY Hn u HuZ HuY). }
  exists cs. split; [done|]. apply NoDup_Permutation; [done|done|]. intros X. split.
  - intros HX. destruct (set_choose_L X (Hne' X HX)) as (u & Hu). destruct (proj1 (Hcov u)) as (Y & HY & HuY); [apply Hv; eauto|].
    by rewrite <- (Hsame Y X u HY HX HuY Hu).
  - intros HX. destruct (set_choose_L X (Hne X HX)) as (u & Hu). destruct (proj1 (Hv u)) as (Y & HY & HuY); [apply Hcov; eauto|].
    by rewrite (Hsame X Y u HX HY Hu HuY).
Qed.

Lemma components_one (G : graph) v0 : graph_wf G → vtx G v0 → (∀ v, vtx G v → rtc (adj G) v0 v) →
  ∃ X, components G = Ok [X] ∧ ∀ v, v ∈ X ↔ vtx G v.
Proof using Hi.
  intros Hwf Hv0 Hr.
  assert (∀ u v, rtc (adj G) u v → vtx G u → vtx G v) as Hcl.
  { intros u v Huv. induction Huv as [|u w v Huw _ IH]; [done|]. intros _. apply IH. by eapply (wf_adj_vtx _ Hwf), (wf_adj_sym _ Hwf). }
  assert (∀ u v, rtc (adj G) u v → rtc (adj G) v u) as Hsym.
  { intros u v Huv. induction Huv as [|u w v Huw _ IH]; [done|]. eapply rtc_r; [exact IH|]. by apply (wf_adj_sym _ Hwf). }
  destruct (components_value G [list_to_set (vertices G)] Hwf) as (cs & Hok & Hp).
  - apply NoDup_singleton.
  - intros X ->%elem_of_list_singleton E. assert (v0 ∈ (list_to_set (vertices G) : gset N)) as Hin; [|set_solver].
    by apply elem_of_list_to_set, (wf_vertices _ Hwf).
  - intros X u v ->%elem_of_list_singleton. rewrite !elem_of_list_to_set, !(wf_vertices _ Hwf). intros Hu. split.
    + intros Hv. etransitivity; [apply Hsym|]; apply Hr; done.
    + intros Huv. by eapply Hcl.
  - intros v. split.
    + intros Hv. eexists. split; [by apply elem_of_list_singleton|]. by apply elem_of_list_to_set, (wf_vertices _ Hwf).
    + intros (X & ->%elem_of_list_singleton & Hv). by apply elem_of_list_to_set, (wf_vertices _ Hwf) in Hv.
  - eexists. split; [rewrite Hok; f_equal; symmetry in Hp; by apply Permutation_singleton_l in Hp|]. intros v.
    by rewrite elem_of_list_to_set, (wf_vertices _ Hwf).
Qed.
End tools.
