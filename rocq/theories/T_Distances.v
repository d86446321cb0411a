(** Property theorem C108: the different ways of measuring distance agree: balls (graph.rs:319-380), components (algorithms/graph.rs:41-64),
    small_distance on weakly reachable sets, dominating sets (algorithms/lineargraph.rs) and DTF graphs (dtfgraph.rs). *)
From Verif Require Import Base Spec M_Graph M_Iterators M_EditGraph M_Algorithms M_OrdGraph M_Linear M_Domset M_DTF S_Graph S_Linear S_DTF
  P_EditGraph P_Degeneracy P_OrdGraph P_OrdGraph2 P_DegenGraph P_Compose P_Counts P_Forest P_Linear P_Conflict P_DTF
  T_EditGraph T_Algorithms T_OrdGraph T_Linear T_Domset T_DTF P_Edits P_DTF6 Examples.

Section distances.
Context {Hi : HashIter}.

Lemma dist_exists (G : graph) n x y : graph_wf G → vtx G x → nsteps (adj G) n x y → ∃ k, k ≤ n ∧ is_dist (adj G) k x y.
Proof.
  intros Hwf Hx. induction n as [n IH] using lt_wf_ind. intros Hn. destruct n as [|n]; [exists 0; split; [done|]; split; [done|lia]|].
  destruct (C12_r_neighbours G x n Hwf Hx) as (S & _ & HS). destruct (decide (y ∈ S)) as [(m & Hm & Hst)%HS|Hno].
  - destruct (IH m) as (k & Hk & Hd); [lia|done|]. exists k. split; [lia|done].
  - exists (Datatypes.S n). split; [done|]. split; [done|]. intros j Hj. destruct (decide (j ≤ n)); [|lia]. exfalso. apply Hno, HS. eauto.
Qed.
Lemma dist_vertices (G : graph) k x y : graph_wf G → vtx G x → is_dist (adj G) k x y →
  ∃ l, NoDup l ∧ length l = S k ∧ ∀ z, z ∈ l → vtx G z ∧ ∃ i, i ≤ k ∧ is_dist (adj G) i x z.
Proof.
  intros Hwf Hx. revert y. induction k as [|k IH]; intros y Hd.
  - exists [y]. split_and!; [apply NoDup_singleton|done|]. intros z ->%elem_of_list_singleton. split; [|eauto]. destruct Hd as [Hd _]. inversion Hd. by subst.
  - pose proof Hd as (_ & u & Hu & Huy)%bfs_step. destruct (IH u Hu) as (l & Hnd & Hlen & Hl). exists (y :: l). split_and!.
    + apply NoDup_cons. split; [|done]. intros (_ & i & Hi' & Hdi)%Hl. pose proof (is_dist_unique _ _ _ _ _ Hd Hdi). lia.
    + cbn. lia.
    + intros z [->|Hz]%elem_of_cons.
      * split; [|eauto]. apply (wf_adj_sym _ Hwf) in Huy. by eapply (wf_adj_vtx _ Hwf).
      * destruct (Hl z Hz) as (? & i & ? & ?). split; [done|]. exists i. split; [lia|done].
Qed.
Lemma dist_short (G : graph) k x y : graph_wf G → vtx G x → is_dist (adj G) k x y → k < num_vertices G.
Proof.
  intros Hwf Hx Hd. destruct (dist_vertices G k x y Hwf Hx Hd) as (l & Hnd & Hlen & Hl). rewrite (wf_num_vertices _ Hwf).
  enough (length l ≤ length (vertices G)) by lia. apply submseteq_length, NoDup_submseteq; [done|]. intros z [Hz _]%Hl. by apply (wf_vertices _ Hwf).
Qed.

(** ** A ball whose radius reaches the number of vertices minus one is the component *)
Theorem C108_component_ball (G : graph) u cs : graph_wf G → contains G u = true → components G = Ok cs →
  ∃ X, X ∈ cs ∧ u ∈ X ∧ ∀ r, num_vertices G ≤ S r → r_neighbours G u r = Ok X.
Proof.
  intros Hwf Hu Hok. destruct (C22_components G Hwf) as (cs' & Hok' & _ & _ & Hdj & Hv & Hr). rewrite Hok in Hok'. injection Hok' as <-.
  destruct (proj1 (Hv u) Hu) as (X & HX & HuX). exists X. split_and!; [done|done|]. intros r Hn.
  destruct (C12_r_neighbours G u r Hwf Hu) as (B & HB & Hspec). rewrite HB. f_equal. apply set_eq. intros v. rewrite Hspec. split.
  - intros (n & _ & Hst). destruct (proj2 (Hr u v Hu)) as (Y & HY & HuY & HvY).
    { apply rtc_nsteps. by exists n. }
    destruct (decide (X = Y)) as [->|Hne]; [done|]. exfalso. exact (Hdj X Y HX HY Hne u HuX HuY).
  - intros HvX. assert (rtc (adj G) u v) as Hreach by (apply (Hr u v Hu); eauto). apply rtc_nsteps in Hreach as [n Hst].
    destruct (dist_exists G n u v Hwf Hu Hst) as (k & _ & Hd). pose proof (dist_short G k u v Hwf Hu Hd). exists k. split; [lia|apply Hd].
Qed.

(** ** small_distance answers exactly what the balls say *)
Theorem C108_balls (L : lgraph) (r d : nat) x y W B : lgraph_wf L → d ≤ r → (N.of_nat (2 * r) + 1 < u32_mod)%N →
  contains L x = true → contains L y = true → wreach_sets L r = Ok W → r_neighbours L x d = Ok B →
  (y ∈ B ↔ ∃ k, small_distance W d x y = Ok (Some k)) ∧
  ∀ k, small_distance W d x y = Ok (Some k) → ∀ j A, r_neighbours L x j = Ok A → (y ∈ A ↔ k ≤ j).
Proof.
  intros HL Hd Hr Hx Hy HW HB. pose proof (lwf_graph L HL) as Hwf.
  destruct (C50_small_distance L r d x y HL Hd Hr Hx Hy) as (W' & o & HW' & Ho & Hs & Hn). rewrite HW in HW'. injection HW' as <-. rewrite Ho.
  assert (∀ j A, r_neighbours L x j = Ok A → (y ∈ A ↔ ∃ n, n ≤ j ∧ nsteps (adj L) n x y)) as Hball.
  { intros j A HA. destruct (C12_r_neighbours L x j Hwf Hx) as (A' & HA' & HS). rewrite HA in HA'. injection HA' as <-. apply HS. }
  split.
  - rewrite (Hball d B HB). split.
    + intros (n & Hnd & Hst). destruct (dist_exists L n x y Hwf Hx Hst) as (k & Hk & Hdk). exists k. f_equal. apply Hs. split; [lia|done].
    + intros [k [= Hk]]. destruct (proj1 (Hs k) Hk) as [? [? _]]. eauto.
  - intros k [= Hk] j A HA. destruct (proj1 (Hs k) Hk) as [_ [Hst Hmin]]. rewrite (Hball j A HA). split; [intros (n & Hnj & Hn')|intros Hkj].
    + specialize (Hmin n Hn'). lia.
    + eauto.
Qed.

(** ** Dominating sets cover by their balls, and meet every component *)
Lemma cover_components (G : graph) r (D : gset N) (cs : list (gset N)) : graph_wf G → components G = Ok cs →
  (∀ v, contains G v = true → ∃ x, x ∈ D ∧ within (adj G) r x v) → length cs ≤ size D.
Proof.
  intros Hwf Hok Hdom. destruct (C22_components G Hwf) as (cs' & Hok' & Hnd & Hne & Hdj & Hv & Hr). rewrite Hok in Hok'. injection Hok' as <-.
  assert (∀ X, X ∈ cs → ∃ x, x ∈ D ∧ x ∈ X) as Hmeet.
  { intros X HX. destruct (set_choose_L X (Hne X HX)) as [v HvX]. assert (vtx G v) as Hv' by (apply Hv; eauto). destruct (Hdom v Hv') as (x & Hx & n & _ & Hst).
    exists x. split; [done|]. destruct (proj2 (Hr v x Hv')) as (Y & HY & HvY & HxY).
    - apply (rtc_sym' G _ _ Hwf). apply rtc_nsteps. by exists n.
    - destruct (decide (X = Y)) as [->|Hn]; [done|]. exfalso. exact (Hdj X Y HX HY Hn v HvX HvY). }
  clear Hok Hne Hv Hr Hdom. revert D Hmeet. induction cs as [|X cs IH]; intros D Hmeet; [cbn; lia|].
  apply NoDup_cons in Hnd as [HXn Hnd]. destruct (Hmeet X) as (x & HxD & HxX); [by left|].
  specialize (IH (λ A B HA HB, Hdj A B (elem_of_list_further _ _ _ HA) (elem_of_list_further _ _ _ HB)) Hnd (D ∖ {[x]})).
  rewrite size_difference, size_singleton in IH by set_solver. assert (size D ≠ 0) as H0.
  { intros E%size_empty_inv. specialize (E x). set_solver. }
  cbn. enough (length cs ≤ size D - 1) by lia. apply IH. intros Y HY. destruct (Hmeet Y) as (y & HyD & HyY); [by right|]. exists y. split; [|done].
  apply elem_of_difference. split; [done|]. intros ->%elem_of_singleton. apply (Hdj X Y) with x; [by left|by right|intros ->; done|done|done].
Qed.
Lemma cover_ball (G : graph) r (D : gset N) (T : list N) : graph_wf G → (∀ x, x ∈ D → contains G x = true) →
  (∀ v, v ∈ T → contains G v = true → ∃ x, x ∈ D ∧ within (adj G) r x v) →
  ∃ B, r_neighbourhood G (elements D) r = Ok B ∧ ∀ v, v ∈ T → contains G v = true → v ∈ B.
Proof.
  intros Hwf HD Hdom. destruct (C12_r_neighbourhood G (elements D) r Hwf) as (B & HB & Hspec); [intros v Hv%elem_of_elements; by apply HD|].
  exists B. split; [done|]. intros v Hv Hc. apply Hspec. destruct (Hdom v Hv Hc) as (x & Hx & n & Hn & Hst). exists x, n. split_and!; [by apply elem_of_elements|done|done].
Qed.
Theorem C108_domset_ball (L : lgraph) (r : nat) witness (T : list N) D dd w : lgraph_wf L → radius_ok r →
  domset_with_target L r witness T = Ok (D, dd, w) →
  ∃ B, r_neighbourhood L (elements D) r = Ok B ∧ ∀ v, v ∈ T → contains L v = true → v ∈ B.
Proof.
  intros HL Hr Hok. assert (dominates L r T D dd) as [HD Hdom].
  { destruct witness; [by apply (proj1 (C46_with_witness_partial L r T HL Hr)) in Hok|].
    destruct (C46_domset_with_target L r T HL Hr) as (D' & dd' & Hok' & Hd). rewrite Hok in Hok'. by injection Hok' as <- <- ->. }
  apply cover_ball; [by apply lwf_graph|done|]. intros v Hv Hc. destruct (Hdom v Hv Hc) as (k & x & _ & Hk & Hx & n & Hn & Hst). exists x. split; [done|]. exists n. split; [lia|done].
Qed.
Theorem C108_domset_components (L : lgraph) (r : nat) D dd cs : lgraph_wf L → radius_ok r → domset L r false = Ok (D, dd, None) →
  components L = Ok cs → length cs ≤ size D ∧ r_neighbourhood L (elements D) r = Ok (list_to_set (vertices L)).
Proof.
  intros HL Hr Hok Hcs. pose proof (lwf_graph L HL) as Hwf. destruct (C46_domset L r HL Hr) as (D' & dd' & Hok' & HD & Hdom). rewrite Hok in Hok'. injection Hok' as <- <-.
  split; [by eapply cover_components|]. destruct (C12_r_neighbourhood L (elements D) r Hwf) as (B & HB & Hspec); [intros v Hv%elem_of_elements; by apply HD|].
  rewrite HB. f_equal. apply set_eq. intros v. rewrite elem_of_list_to_set, (wf_vertices _ Hwf). rewrite Hspec. split.
  - intros (x & n & Hx%elem_of_elements%HD & _ & Hst). clear -Hwf Hx Hst. induction Hst as [|n x z y Hxz _ IH]; [done|]. apply IH. apply (wf_adj_sym _ Hwf) in Hxz. by eapply (wf_adj_vtx _ Hwf).
  - intros Hv. destruct (Hdom v Hv) as (x & Hx & n & Hn & Hst). exists x, n. split_and!; [by apply elem_of_elements|done|done].
Qed.
Theorem C108_dtf_domset (G : graph) (g : dtfgraph) (r : nat) D g' cs : graph_wf G → loopless G → dtf_reach_layer G g →
  df_domset g r = Ok (D, g') → components G = Ok cs → length cs ≤ size D ∧ r_neighbourhood G (elements D) r = Ok (list_to_set (vertices G)).
Proof.
  intros Hwf Hl Hr Hok Hcs. assert (N.of_nat (2 * r) * N.of_nat (2 * r) < u32_mod)%N as Hrad.
  { destruct (N.ltb_spec (N.of_nat (2 * r) * N.of_nat (2 * r)) u32_mod) as [?|Hge]; [done|]. by rewrite (C55_domset_overflow G g r Hwf Hl Hr Hge) in Hok. }
  destruct (C55_domset_partial G g r Hwf Hl Hr Hrad) as (D' & h & Hok' & HD & Hdom). rewrite Hok in Hok'. injection Hok' as <- <-.
  split; [by eapply cover_components|]. destruct (C12_r_neighbourhood G (elements D) r Hwf) as (B & HB & Hspec); [intros v Hv%elem_of_elements; by apply HD|].
  rewrite HB. f_equal. apply set_eq. intros v. rewrite elem_of_list_to_set, (wf_vertices _ Hwf). rewrite Hspec. split.
  - intros (x & n & Hx%elem_of_elements%HD & _ & Hst). clear -Hwf Hx Hst. induction Hst as [|n x z y Hxz _ IH]; [done|]. apply IH. apply (wf_adj_sym _ Hwf) in Hxz. by eapply (wf_adj_vtx _ Hwf).
  - intros Hv. destruct (Hdom v Hv) as (x & Hx & n & Hn & Hst). exists x, n. split_and!; [by apply elem_of_elements|done|done].
Qed.

(** ** The distance of a DTF graph lies in the ball and is never below the distance from the linear graph *)
Theorem C108_dtf_distance (G : graph) (g : dtfgraph) u v d : graph_wf G → loopless G → dtf_reach_layer G g → contains G u = true → contains G v = true →
  df_small_distance g u v = Ok (Some d) →
  (∃ B, r_neighbours G u d = Ok B ∧ v ∈ B) ∧
  ∀ (L : lgraph) r W, lgraph_wf L → (∀ x, contains L x = contains G x) → (∀ x y, adjacent L x y = adjacent G x y) → d ≤ r → (N.of_nat (2 * r) + 1 < u32_mod)%N →
    wreach_sets L r = Ok W → ∃ k, small_distance W r u v = Ok (Some k) ∧ k ≤ d ∧ (u ≠ v → d ≤ 2 → k = d).
Proof.
  intros Hwf Hl Hr Hu Hv Hd. destruct (C53_small_distance G g u v Hwf Hl Hr Hu Hv) as (o & Ho & Hod). rewrite Hd in Ho. injection Ho as <-.
  destruct (Hod d eq_refl) as [_ (n & Hn & Hst)]. split.
  - destruct (C12_r_neighbours G u d Hwf Hu) as (B & HB & Hspec). exists B. split; [done|]. apply Hspec. eauto.
  - intros L r W HL HV HA Hdr Hr2 HW. destruct (C50_small_distance L r r u v HL) as (W' & o & HW' & Ho & Hs & _); [done|done|by rewrite HV|by rewrite HV|]. rewrite HW in HW'. injection HW' as <-.
    assert (∀ n x y, nsteps (adj L) n x y ↔ nsteps (adj G) n x y) as Hsteps.
    { assert (∀ n x y (R R' : N → N → Prop), (∀ a b, R a b → R' a b) → nsteps R n x y → nsteps R' n x y) as Hm.
      { intros m x y R R' HR Hm. induction Hm; [constructor|econstructor; eauto]. }
      intros m x y. split; apply Hm; intros a b; unfold adj; by rewrite HA. }
    destruct (dist_exists G n u v Hwf Hu Hst) as (k & Hk & Hdk). exists k. assert (is_dist (adj L) k u v) as HdL.
    { destruct Hdk as [H1 H2]. split; [by apply Hsteps|]. intros m Hm. apply H2. by apply Hsteps. }
    rewrite Ho. split_and!; [f_equal; apply Hs; split; [lia|done]|lia|]. intros Hne H2. destruct (C54_small_values_partial G g u v Hwf Hl Hr Hu Hv) as [_ Hex].
    exact (is_dist_unique _ _ _ _ _ Hdk (Hex d Hne Hd H2)).
Qed.

(** ** Sides of a bipartition are distances modulo two *)
Theorem C108_parity (L : lgraph) A B (r d k : nat) x y W : lgraph_wf L → is_bipartite L = Ok (Bipartition A B) → d ≤ r → (N.of_nat (2 * r) + 1 < u32_mod)%N →
  contains L x = true → contains L y = true → wreach_sets L r = Ok W → small_distance W d x y = Ok (Some k) → ((x ∈ A ↔ y ∈ A) ↔ Nat.even k = true).
Proof.
  intros HL Hb Hd Hr Hx Hy HW Hk. pose proof (lwf_graph L HL) as Hwf. destruct (C25_bipartition L A B Hwf Hb) as (Hdj & HV & HE).
  destruct (C50_small_distance L r d x y HL Hd Hr Hx Hy) as (W' & o & HW' & Ho & Hs & _). rewrite HW in HW'. injection HW' as <-. rewrite Hk in Ho. injection Ho as <-.
  destruct (proj1 (Hs k) eq_refl) as [_ [Hst _]]. clear -Hst Hdj HE. induction Hst as [x|n x z y Hxz Hst IH]; [done|].
  rewrite Nat.even_succ, <- Nat.negb_even, negb_true_iff, <- not_true_iff_false, <- IH. destruct (HE x z Hxz) as [[? Hz]|[Hx' ?]].
  - assert (z ∉ A) by (intros ?; by apply (Hdj z)). destruct (decide (y ∈ A)); tauto.
  - assert (x ∉ A) by (intros ?; by apply (Hdj x)). destruct (decide (y ∈ A)); tauto.
Qed.
End distances.

(** ** Cases meeting the hypotheses: a path 0-1-2-3-4 ordered 2,0,4,1,3 with a separate edge 7-8 *)
Local Existing Instance std_iter.
Definition C108_edges : list (N * N) := [(0, 1); (1, 2); (2, 3); (3, 4); (7, 8)]%N.
Definition C108_lin : lgraph := ex_lin C108_edges [2; 0; 4; 7; 1; 3; 8]%N.
Lemma ex_C108_wf : lgraph_wf C108_lin ∧ graph_wf (eg_graph (ex_edit C108_edges)) ∧ loopless (eg_graph (ex_edit C108_edges)) ∧
  radius_ok 1 ∧ (N.of_nat (2 * 3) + 1 < u32_mod)%N.
Proof.
  destruct (ex_lin_spec C108_edges [2; 0; 4; 7; 1; 3; 8]%N) as (_ & Hwf & _); [by vm_compute|]. destruct (ex_edit_spec C108_edges) as [Hg Ha].
  split_and!; [exact Hwf|exact Hg| |vm_compute; reflexivity|vm_compute; reflexivity].
  intros u Hu. apply Ha in Hu. unfold C108_edges in Hu. set_solver.
Qed.
Example ex_C108 : (W ← wreach_sets C108_lin 3; a ← small_distance W 3 0 3; b ← small_distance W 3 0 4; c ← small_distance W 3 0 7;
    B ← r_neighbours C108_lin 0 3; A ← r_neighbours C108_lin 0 6; Ok (a, b, c, size B, size A)) = Ok (Some 3, None, None, 4, 5) ∧
  (cs ← components C108_lin; '(D, _, _) ← domset C108_lin 1 false; B ← r_neighbourhood C108_lin (elements D) 1; Ok (length cs, 2 <=? size D, size B))
    = Ok (2, true, 7) ∧
  (w ← is_bipartite C108_lin; Ok match w with Bipartition A B => eqb (bool_decide (0%N ∈ A)) (bool_decide (3%N ∈ A)) | OddCycle _ => true end) = Ok false.
Proof. vm_compute. split_and!; reflexivity. Qed.
Example ex_C108_dtf : ∃ g, dtf_reach_layer (eg_graph (ex_edit C108_edges)) g ∧ df_small_distance g 0 2 = Ok (Some 2) ∧
  (r ← df_domset g 1; cs ← components (eg_graph (ex_edit C108_edges)); Ok (length cs, 2 <=? size r.1)) = Ok (2, true).
Proof.
  exists (ex_dtf_run C108_edges 2 0). destruct (ex_dtf_ok C108_edges 2 0) as (_ & _ & H); [by vm_compute|].
  split; [apply reach_reach_layer; exact H|]. vm_compute. split; reflexivity.
Qed.

Print Assumptions C108_component_ball.
Print Assumptions C108_balls.
Print Assumptions C108_domset_ball.
Print Assumptions C108_domset_components.
Print Assumptions C108_dtf_domset.
Print Assumptions C108_dtf_distance.
Print Assumptions C108_parity.
