(** Property theorem C92: what the algorithms return on the generated graph families, and
    identities between the generators. *)
From Verif Require Import Base Spec M_Graph M_Iterators M_EditGraph M_Algorithms M_Operations S_Graph
  P_EditGraph P_EditGraph2 P_Unions P_Generators T_EditGraph T_Operations T_Algorithms T_Determin2 P_Compose.

Section generated.
Context {Hi : HashIter}.

(** Statement vocabulary (not code): the three verdicts on a graph. *)
Definition has_components (g : editgraph) (c : nat) : Prop := ∃ cs, components (eg_graph g) = Ok cs ∧ length cs = c.
Definition is_bip (g : editgraph) : Prop := ∃ L R, is_bipartite (eg_graph g) = Ok (Bipartition L R).
Definition has_degeneracy (g : editgraph) (k : nat) : Prop := ∃ order core, degeneracy (eg_graph g) = Ok (k, k, order, core).

Lemma one_component (g : editgraph) v0 : eg_reachable g → eg_contains g v0 = true →
  (∀ v, eg_contains g v = true → rtc (λ x y, eg_adjacent g x y = true) v0 v) → has_components g 1.
Proof using Hi.
  intros Hr H0 Hrt. destruct (components_one (eg_graph g) v0 (C10_reachable_wf g Hr) H0 Hrt) as (X & HX & _).
  by exists [X].
Qed.
Lemma bip_iff (g : editgraph) : eg_reachable g →
  is_bip g ↔ ∃ f : N → bool, ∀ u v, eg_adjacent g u v = true → f u ≠ f v.
Proof using Hi. intros Hr. apply (C25_iff_two_colourable (eg_graph g) (C10_reachable_wf g Hr)). Qed.
Lemma degen_intro (g : editgraph) H k (ρ : N → N) (L : N → list N) : eg_reachable g → (∀ u, eg_adjacent g u u ≠ true) →
  H ≠ ∅ → min_degree (eg_graph g) H k → k ≤ 129 →
  (∀ v u, eg_adjacent g v u = true → (ρ u <= ρ v)%N → u ∈ L v) → (∀ v, length (L v) ≤ k) → has_degeneracy g k.
Proof using Hi.
  intros Hr Hl HH Hm Hk HL Hlen. apply (degeneracy_value (eg_graph g) H k (C10_reachable_wf g Hr)); [exact Hl|done..|].
  intros H' j HH' Hm'. apply (md_rank (eg_graph g) ρ L k H' j HH' Hm'); [|done]. intros v u _ _. apply HL.
Qed.
Lemma rtc_label (R : N → N → Prop) n : (∀ x, (x + 1 < n)%N → R x (x + 1)%N) → ∀ x, (x < n)%N → rtc R 0%N x.
Proof.
  intros HR x. induction x as [|x IH] using N.peano_ind; intros Hx; [done|]. eapply rtc_r; [apply IH; lia|].
  rewrite <- N.add_1_r in *. apply HR. lia.
Qed.

Lemma odd_step x : N.odd (x + 1) ≠ N.odd x.
Proof. rewrite N.add_1_r, N.odd_succ, <- N.negb_odd. by destruct (N.odd x). Qed.

(** ** C92: paths *)
Theorem C92_path (n : N) : (0 < n)%N → ∃ g, eg_path n = Ok g ∧ has_components g 1 ∧ is_bip g ∧
  has_degeneracy g (if decide (n = 1%N) then 0 else 1).
Proof.
  intros Hn. destruct (C15_path n) as (g & Eg & Rg & Vg & Ag). exists g. split_and!; [done| | |].
  - apply (one_component g 0%N Rg); [by apply Vg|]. intros v Hv%Vg. apply (rtc_label _ n); [|done].
    intros x Hx. apply Ag. lia.
  - apply (bip_iff g Rg). exists N.odd. intros u v (_ & _ & [->| ->])%Ag; rewrite N.add_1_r, N.odd_succ, <- N.negb_odd; by destruct (N.odd _).
  - assert (∀ u, eg_adjacent g u u ≠ true) as Hl by (intros u Hu%Ag; lia). case_decide as E.
    + apply (degen_intro g {[0%N]} 0 id (λ _, [])); [done|done|set_solver| |lia| |done].
      * intros v ->%elem_of_singleton. split; [by apply Vg|]. exists []. split_and!; [constructor|cbn; lia|set_solver].
      * intros v u Huv%Ag. lia.
    + apply (degen_intro g {[0%N; 1%N]} 1 id (λ v, [(v - 1)%N])); [done|done|set_solver| |lia| |done].
      * intros v Hv. assert (v = 0 ∨ v = 1)%N as Hv' by set_solver. split; [apply Vg; lia|].
        exists [(1 - v)%N]. split_and!; [apply NoDup_singleton|done|]. intros u ->%elem_of_list_singleton.
        split; [|apply Ag; lia]. destruct Hv' as [->| ->]; set_solver.
      * intros v u Huv%Ag Hle. apply elem_of_list_singleton. unfold id in Hle. lia.
Qed.

(** ** C92: cycles *)
Theorem C92_cycle (n : N) : (3 <= n)%N → ∃ g, eg_cycle n = Ok g ∧ has_components g 1 ∧ (is_bip g ↔ N.even n = true) ∧
  has_degeneracy g 2.
Proof.
  intros Hn. destruct (C15_cycle n) as (g & Eg & Rg & Vg & Ag').
  assert (∀ x y, eg_adjacent g x y = true ↔ (x < n ∧ y < n ∧ (y = x + 1 ∨ x = y + 1 ∨ (x = 0 ∧ y = n - 1) ∨ (y = 0 ∧ x = n - 1)))%N) as Ag.
  { assert (∀ a, (a < n → (a + 1 < n ∧ (a + 1) mod n = a + 1) ∨ (a = n - 1 ∧ (a + 1) mod n = 0))%N) as Hm.
    { intros a Ha. destruct (decide (a + 1 = n)%N) as [E|].
      - right. split; [lia|]. rewrite E. apply N.mod_same. lia.
      - left. split; [lia|]. apply N.mod_small. lia. }
    intros x y. rewrite Ag'. split.
    - intros (Hx & Hy & Hd). split_and!; [done..|]. destruct (Hm x Hx) as [[? E1]|[? E1]], (Hm y Hy) as [[? E2]|[? E2]]; rewrite E1, E2 in Hd; lia.
    - intros (Hx & Hy & Hd). split_and!; [done..|]. destruct (Hm x Hx) as [[? E1]|[? E1]], (Hm y Hy) as [[? E2]|[? E2]]; rewrite E1, E2; lia. }
  clear Ag'. exists g. split_and!; [done| | |].
  - apply (one_component g 0%N Rg); [apply Vg; lia|]. intros v Hv%Vg. apply (rtc_label _ n); [|done].
    intros x Hx. apply Ag. lia.
  - rewrite (bip_iff g Rg). split.
    + intros (f & Hf). assert (∀ x, (x < n)%N → f x = xorb (f 0%N) (N.odd x)) as Hx.
      { intros x. induction x as [|x IH] using N.peano_ind; intros Hx; [by destruct (f 0%N)|].
        rewrite N.odd_succ, <- N.negb_odd. assert (f x ≠ f (N.succ x)) as Hne by (apply Hf, Ag; lia).
        rewrite IH in Hne by lia. destruct (f 0%N), (N.odd x), (f (N.succ x)); done. }
      assert (f 0%N ≠ f (n - 1)%N) as Hne by (apply Hf, Ag; lia). rewrite (Hx (n - 1)%N) in Hne by lia.
      replace n with (N.succ (n - 1)) by lia. rewrite N.even_succ. destruct (f 0%N), (N.odd (n - 1)); done.
    + intros Hev. exists N.odd.
      assert (N.odd (n - 1) = true) as Hodd by (rewrite <- N.even_succ; by replace (N.succ (n - 1)) with n by lia).
      intros u v (_ & _ & [->|[->|[[-> ->]|[-> ->]]]])%Ag.
      * apply not_eq_sym, odd_step.
      * apply odd_step.
      * by rewrite Hodd.
      * by rewrite Hodd.
  - assert (∀ u, eg_adjacent g u u ≠ true) as Hl by (intros u Hu%Ag; lia).
    set (L := λ v, if decide (v = 0%N) then [1; n - 1]%N else if decide (v = n - 1)%N then [0; n - 2]%N else [v - 1; v + 1]%N).
    assert (∀ v, NoDup (L v) ∧ length (L v) = 2) as HL.
    { intros v. unfold L. repeat case_decide; (split; [|done]); apply NoDup_cons; (split; [|apply NoDup_singleton]); rewrite elem_of_list_singleton; lia. }
    assert (∀ v u, (v < n)%N → u ∈ L v ↔ eg_adjacent g v u = true) as HLa.
    { intros v u Hv. rewrite Ag. unfold L. repeat case_decide; rewrite elem_of_cons, elem_of_list_singleton; lia. }
    apply (degen_intro g (list_to_set (nrange 0 (N.to_nat n))) 2 id L); [done|done| | |lia| |].
    + intros E. assert (0%N ∈ (list_to_set (nrange 0 (N.to_nat n)) : gset N)) as H0; [|rewrite E in H0; set_solver].
      apply elem_of_list_to_set, elem_of_nrange. lia.
    + intros v Hv%elem_of_list_to_set%elem_of_nrange. assert (v < n)%N as Hvn by lia. split; [by apply Vg|].
      exists (L v). destruct (HL v) as [? ->]. split_and!; [done|done|]. intros u Hu%HLa; [|done]. split; [|done].
      apply elem_of_list_to_set, elem_of_nrange. apply Ag in Hu. lia.
    + intros v u Huv _. apply HLa; [apply Ag in Huv; lia|done].
    + intros v. by rewrite (proj2 (HL v)).
Qed.

(** ** C92: cliques *)
Theorem C92_clique (n : N) : (0 < n)%N → ∃ g, eg_clique n = Ok g ∧ has_components g 1 ∧ (is_bip g ↔ (n <= 2)%N) ∧
  ((n <= 130)%N → has_degeneracy g (N.to_nat n - 1)).
Proof.
  intros Hn. destruct (C15_clique n) as (g & Eg & Rg & Vg & Ag). exists g. split_and!; [done| | |].
  - apply (one_component g 0%N Rg); [by apply Vg|]. intros v Hv%Vg. destruct (decide (v = 0%N)) as [->|]; [done|].
    apply rtc_once, Ag. lia.
  - rewrite (bip_iff g Rg). split.
    + intros (f & Hf). destruct (decide (n <= 2)%N); [done|]. exfalso.
      assert (f 0%N ≠ f 1%N) by (apply Hf, Ag; lia). assert (f 0%N ≠ f 2%N) by (apply Hf, Ag; lia).
      assert (f 1%N ≠ f 2%N) by (apply Hf, Ag; lia). destruct (f 0%N), (f 1%N), (f 2%N); done.
    + intros Hle. exists N.odd. intros u v Huv%Ag.
      assert ((u = 0 ∧ v = 1) ∨ (u = 1 ∧ v = 0))%N as [[-> ->]|[-> ->]] by lia; done.
  - intros Hle. assert (∀ u, eg_adjacent g u u ≠ true) as Hl by (intros u Hu%Ag; lia).
    assert (∀ v, (v < n)%N → length (filter (λ u, u ≠ v) (nrange 0 (N.to_nat n))) = N.to_nat n - 1) as Hlen.
    { intros v Hv. assert (nrange 0 (N.to_nat n) ≡ₚ v :: filter (λ u, u ≠ v) (nrange 0 (N.to_nat n))) as Hp.
      { apply NoDup_Permutation; [apply NoDup_nrange| |].
        - apply NoDup_cons. split; [rewrite elem_of_list_filter; tauto|apply NoDup_filter, NoDup_nrange].
        - intros x. rewrite elem_of_cons, elem_of_list_filter, elem_of_nrange. destruct (decide (x = v)); [|tauto].
          split; [tauto|]. intros _. lia. }
      apply Permutation_length in Hp. rewrite nrange_length in Hp. cbn in Hp. lia. }
    apply (degen_intro g (list_to_set (nrange 0 (N.to_nat n))) _ id (λ v, if decide (v < n)%N then filter (λ u, u ≠ v) (nrange 0 (N.to_nat n)) else [])); [done|done| | |lia| |].
    + intros E. assert (0%N ∈ (list_to_set (nrange 0 (N.to_nat n)) : gset N)) as H0; [|rewrite E in H0; set_solver].
      apply elem_of_list_to_set, elem_of_nrange. lia.
    + intros v Hv%elem_of_list_to_set%elem_of_nrange. assert (v < n)%N as Hvn by lia. split; [by apply Vg|].
      exists (filter (λ u, u ≠ v) (nrange 0 (N.to_nat n))). rewrite Hlen by done. split_and!; [apply NoDup_filter, NoDup_nrange|done|].
      intros u [Hu1 Hu2]%elem_of_list_filter. split; [by apply elem_of_list_to_set|]. apply elem_of_nrange in Hu2. apply Ag. lia.
    + intros v u Huv%Ag _. rewrite decide_True by lia. apply elem_of_list_filter. split; [lia|]. apply elem_of_nrange. lia.
    + intros v. case_decide; [by rewrite Hlen|cbn; lia].
Qed.

(** ** C92: graphs without edges, and perfect matchings *)
Lemma classes_of (g : editgraph) (F : N → gset N) (n : nat) : eg_reachable g →
  (∀ i, i ∈ F i) → (∀ i j, i ∈ nrange 0 n → j ∈ nrange 0 n → F i = F j → i = j) →
  (∀ i u v, i ∈ nrange 0 n → u ∈ F i → v ∈ F i ↔ rtc (λ x y, eg_adjacent g x y = true) u v) →
  (∀ v, eg_contains g v = true ↔ ∃ i, i ∈ nrange 0 n ∧ v ∈ F i) → has_components g n.
Proof using Hi.
  intros Hr Hin Hinj Hcl Hcov. destruct (components_value (eg_graph g) (F <$> nrange 0 n) (C10_reachable_wf g Hr)) as (cs & Hok & Hp).
  - apply NoDup_fmap_2_strong; [done|apply NoDup_nrange].
  - intros X (i & -> & _)%elem_of_list_fmap E. pose proof (Hin i). rewrite E in *. set_solver.
  - intros X u v (i & -> & Hi')%elem_of_list_fmap Hu. by apply Hcl.
  - intros v. unfold vtx. cbn. rewrite Hcov. split.
    + intros (i & Hi' & Hv). exists (F i). split; [by apply elem_of_list_fmap_1|done].
    + intros (X & (i & -> & Hi')%elem_of_list_fmap & Hv). eauto.
  - exists cs. split; [done|]. rewrite Hp, fmap_length, nrange_length. done.
Qed.

Theorem C92_independent (n : N) : has_components (eg_independent n) (N.to_nat n) ∧ is_bip (eg_independent n) ∧
  ((0 < n)%N → has_degeneracy (eg_independent n) 0).
Proof.
  destruct (C15_independent n) as (g & Eg & Rg & Vg & Ag). injection Eg as ->. split_and!.
  - apply (classes_of g (λ i, {[i]})); [done|set_solver|set_solver| |].
    + intros i u v _ ->%elem_of_singleton. rewrite elem_of_singleton. split; [by intros ->|].
      intros Hst. inversion Hst as [|? y ? Ha]; [done|]. by apply Ag in Ha.
    + intros v. rewrite Vg. split.
      * intros Hv. exists v. rewrite elem_of_nrange, elem_of_singleton. lia.
      * intros (i & Hi'%elem_of_nrange & ->%elem_of_singleton). lia.
  - apply (bip_iff g Rg). exists (λ _, true). by intros u v Huv%Ag.
  - intros Hn. apply (degen_intro g {[0%N]} 0 id (λ _, [])); [done|by intros u Hu%Ag|set_solver| |lia|by intros v u Huv%Ag|done].
    intros v ->%elem_of_singleton. split; [by apply Vg|]. exists []. split_and!; [constructor|cbn; lia|set_solver].
Qed.

Theorem C92_matching (n : N) : (0 < n)%N → (2 * n <= 4294967296)%N → ∃ g, eg_matching n = Ok g ∧
  has_components g (N.to_nat n) ∧ is_bip g ∧ has_degeneracy g 1.
Proof.
  intros Hn Hb. destruct (C15_matching n Hb) as (g & Eg & Rg & Vg & Ag). exists g. split_and!; [done| | |].
  - apply (classes_of g (λ i, {[i; (i + n)%N]})); [done|set_solver| | |].
    + intros i j Hi1%elem_of_nrange Hj1%elem_of_nrange E. assert (i ∈ ({[j; (j + n)%N]} : gset N)) as H1 by (rewrite <- E; set_solver).
      apply elem_of_union in H1 as [H1%elem_of_singleton|H1%elem_of_singleton]; lia.
    + intros i u v Hi'%elem_of_nrange Hu. rewrite elem_of_union, !elem_of_singleton in Hu |- *. split.
      * intros Hv. destruct (decide (u = v)) as [->|]; [done|]. apply rtc_once, Ag. lia.
      * intros Hst. induction Hst as [u|u w v Huw%Ag _ IH]; [done|]. apply IH. lia.
    + intros v. rewrite Vg. split.
      * intros Hv. destruct (decide (v < n)%N); [exists v|exists (v - n)%N]; rewrite elem_of_nrange, elem_of_union, !elem_of_singleton; lia.
      * intros (i & Hi'%elem_of_nrange & Hv). rewrite elem_of_union, !elem_of_singleton in Hv. lia.
  - apply (bip_iff g Rg). exists (λ x, bool_decide (x < n)%N). intros u v Huv%Ag. do 2 case_bool_decide; [lia|done..|lia].
  - apply (degen_intro g {[0%N; n]} 1 id (λ v, [(v - n)%N])); [done|intros u Hu%Ag; lia|set_solver| |lia| |done].
    + intros v Hv. assert (v = 0 ∨ v = n)%N as Hv' by set_solver. split; [apply Vg; lia|].
      exists [(n - v)%N]. split_and!; [apply NoDup_singleton|done|]. intros u ->%elem_of_list_singleton.
      split; [|apply Ag; lia]. rewrite elem_of_union, !elem_of_singleton. lia.
    + intros v u Huv%Ag Hle. apply elem_of_list_singleton. unfold id in Hle. lia.
Qed.

(** ** C92: complete bipartite graphs *)
Theorem C92_biclique (s t : N) : (0 < s)%N → (0 < t)%N → (s + t < 4294967296)%N → ∃ g, eg_biclique s t = Ok g ∧
  has_components g 1 ∧ is_bip g ∧ ((N.min s t <= 129)%N → has_degeneracy g (N.to_nat (N.min s t))).
Proof.
  intros Hs Ht Hst. destruct (C15_biclique_partial s t Hs Ht Hst) as (g & Eg & Rg & Vg & Ag). exists g. split_and!; [done| | |].
  - apply (one_component g 0%N Rg); [apply Vg; lia|]. intros v Hv%Vg. destruct (decide (v = 0%N)) as [->|]; [done|].
    destruct (decide (v < s)%N).
    + eapply rtc_l; [|apply rtc_once]; apply Ag; [instantiate (1 := s)|]; lia.
    + apply rtc_once, Ag. lia.
  - apply (bip_iff g Rg). exists (λ x, bool_decide (x < s)%N). intros u v Huv%Ag. do 2 case_bool_decide; [lia|done..|lia].
  - intros Hk.
    assert (min_degree (eg_graph g) (list_to_set (nrange 0 (N.to_nat (s + t)))) (N.to_nat (N.min s t))) as Hm.
    { intros v Hv%elem_of_list_to_set%elem_of_nrange. split; [apply Vg; lia|]. destruct (decide (v < s)%N).
      - exists (nrange s (N.to_nat t)). rewrite nrange_length. split_and!; [apply NoDup_nrange|lia|]. intros u Hu%elem_of_nrange.
        split; [apply elem_of_list_to_set, elem_of_nrange; lia|apply Ag; lia].
      - exists (nrange 0 (N.to_nat s)). rewrite nrange_length. split_and!; [apply NoDup_nrange|lia|]. intros u Hu%elem_of_nrange.
        split; [apply elem_of_list_to_set, elem_of_nrange; lia|apply Ag; lia]. }
    assert ((list_to_set (nrange 0 (N.to_nat (s + t))) : gset N) ≠ ∅) as Hne.
    { intros E. assert (0%N ∈ (list_to_set (nrange 0 (N.to_nat (s + t))) : gset N)) as H0; [|rewrite E in H0; set_solver].
      apply elem_of_list_to_set, elem_of_nrange. lia. }
    assert (∀ u, eg_adjacent g u u ≠ true) as Hl by (intros u Hu%Ag; lia).
    destruct (decide (s <= t)%N).
    + apply (degen_intro g _ _ id (λ _, nrange 0 (N.to_nat s)) Rg Hl Hne Hm); [lia| |intros v; rewrite nrange_length; lia].
      intros v u Huv%Ag Hle. unfold id in Hle. apply elem_of_nrange. lia.
    + apply (degen_intro g _ _ (λ x, if decide (x < s)%N then x + t else x - s)%N (λ _, nrange s (N.to_nat t)) Rg Hl Hne Hm); [lia| |intros v; rewrite nrange_length; lia].
      intros v u Huv%Ag Hle. apply elem_of_nrange. repeat case_decide; lia.
Qed.

(** ** C92: grids *)
Lemma grid_div t r c : (c < t)%N → ((r * t + c) / t = r ∧ (r * t + c) mod t = c)%N.
Proof.
  intros Hc. split.
  - rewrite N.div_add_l by lia. rewrite N.div_small by done. lia.
  - rewrite N.add_comm, N.mod_add by lia. by apply N.mod_small.
Qed.
Theorem C92_grid (s t : N) : (2 <= s)%N → (2 <= t)%N → (s * t < 4294967296)%N → ∃ g, eg_grid s t = Ok g ∧
  has_components g 1 ∧ is_bip g ∧ has_degeneracy g 2.
Proof.
  intros Hs Ht Hst. destruct (eg_grid_spec s t Hst) as (g & Eg & Wg & Vg & Ag). pose proof (eg_reachable_wf g) as Hrw.
  assert (eg_reachable g) as Rg by (by apply eg_reachable_wf). clear Hrw.
  assert (∀ x, eg_contains g x = true ↔ (x < s * t ∧ s * t ≠ 1)%N) as Vg' by exact Vg.
  assert (∀ x y, eg_adjacent g x y = true ↔ grid_adj s t x y ∨ grid_adj s t y x) as Ag' by exact Ag. clear Vg Ag Wg.
  assert (4 <= s * t)%N as H4 by nia.
  assert (∀ r c, (r < s)%N → (c < t)%N → (r * t + c < s * t)%N) as Hrc by (intros; nia).
  exists g. split_and!; [done| | |].
  - apply (one_component g 0%N Rg); [apply Vg'; lia|].
    assert (∀ r, (r < s)%N → rtc (λ x y, eg_adjacent g x y = true) 0%N (r * t)%N) as Hcol.
    { intros r. induction r as [|r IH] using N.peano_ind; intros Hr; [done|]. eapply rtc_r; [apply IH; lia|].
      apply Ag'. left. exists r, 0%N. split_and!; [lia..|]. right. lia. }
    assert (∀ r c, (r < s)%N → (c < t)%N → rtc (λ x y, eg_adjacent g x y = true) 0%N (r * t + c)%N) as Hrow.
    { intros r c Hr. induction c as [|c IH] using N.peano_ind; intros Hc; [rewrite N.add_0_r; by apply Hcol|].
      eapply rtc_r; [apply IH; lia|]. apply Ag'. left. exists r, c. split_and!; [lia..|]. left. lia. }
    intros v [Hv _]%Vg'. rewrite (N.div_mod v t), (N.mul_comm t) by lia. apply Hrow; [|apply N.mod_lt; lia].
    apply N.div_lt_upper_bound; lia.
  - apply (bip_iff g Rg). exists (λ x, N.odd (x / t + x mod t)).
    assert (∀ x y, grid_adj s t x y → N.odd (x / t + x mod t) ≠ N.odd (y / t + y mod t)) as Hgo.
    { intros x y (r & c & Hr & Hc & -> & [[-> Hb]|[-> Hb]]).
      - destruct (grid_div t r c Hc) as [-> ->], (grid_div t r (c + 1) Hb) as [-> ->].
        rewrite N.add_assoc, (N.add_1_r (r + c)), N.odd_succ, <- N.negb_odd. by destruct (N.odd _).
      - destruct (grid_div t r c Hc) as [-> ->], (grid_div t (r + 1) c Hc) as [-> ->].
        replace (r + 1 + c)%N with (N.succ (r + c)) by lia. rewrite N.odd_succ, <- N.negb_odd. by destruct (N.odd _). }
    intros u v [Huv|Huv]%Ag'; [by apply Hgo|]. intros E. by apply (Hgo v u Huv).
  - assert (∀ x y, grid_adj s t x y → (x < y ∧ (x = y - 1 ∨ x = y - t))%N) as Hlt.
    { intros x y (r & c & Hr & Hc & -> & [[-> Hb]|[-> Hb]]); lia. }
    assert (∀ u, eg_adjacent g u u ≠ true) as Hl by (intros u [Hu%Hlt|Hu%Hlt]%Ag'; lia).
    apply (degen_intro g {[0; 1; t; t + 1]}%N 2 id (λ v, [(v - 1)%N; (v - t)%N])); [done|done|set_solver| |lia| |done].
    + assert (∀ r c, (r < 2)%N → (c < 2)%N → eg_contains g (r * t + c) = true ∧
        eg_adjacent g (r * t + c) ((1 - r) * t + c) = true ∧ eg_adjacent g (r * t + c) (r * t + (1 - c)) = true) as Hsq.
      { intros r c Hr Hc. split_and!; [apply Vg'; split; [apply Hrc; lia|lia]|apply Ag'|apply Ag'].
        - assert (r = 0 ∨ r = 1)%N as [->| ->] by lia; [left|right]; exists 0%N, c; (split_and!; [lia..|]); right; lia.
        - assert (c = 0 ∨ c = 1)%N as [->| ->] by lia; [left|right]; exists r, 0%N; (split_and!; [lia..|]); left; lia. }
      intros v Hv. assert (∃ r c, (r < 2 ∧ c < 2 ∧ v = r * t + c)%N) as (r & c & Hr & Hc & ->).
      { assert (v = 0 ∨ v = 1 ∨ v = t ∨ v = t + 1)%N as [->|[->|[->| ->]]] by set_solver;
          [exists 0%N, 0%N|exists 0%N, 1%N|exists 1%N, 0%N|exists 1%N, 1%N]; lia. }
      destruct (Hsq r c Hr Hc) as (H0 & H1 & H2). split; [done|]. exists [((1 - r) * t + c)%N; (r * t + (1 - c))%N].
      assert (r = 0 ∨ r = 1)%N as Hr' by lia. assert (c = 0 ∨ c = 1)%N as Hc' by lia. split_and!; [|done|].
      * apply NoDup_cons. split; [|apply NoDup_singleton]. rewrite elem_of_list_singleton.
        destruct Hr' as [->| ->], Hc' as [->| ->]; lia.
      * intros u Hu. rewrite elem_of_cons, elem_of_list_singleton in Hu. rewrite !elem_of_union, !elem_of_singleton.
        destruct Hu as [->| ->]; (split; [|done]); destruct Hr' as [->| ->], Hc' as [->| ->]; lia.
    + intros v u [Huv%Hlt|Huv%Hlt]%Ag' Hle; unfold id in Hle; [lia|]. rewrite elem_of_cons, elem_of_list_singleton. lia.
Qed.

(** ** C92: identities between generators (equality of the returned states) *)
Lemma same_run (r1 r2 : res editgraph) PV1 PE1 PV2 PE2 : produces r1 PV1 PE1 → produces r2 PV2 PE2 →
  (∀ x, PV1 x ↔ PV2 x) → (∀ x y, PE1 x y ↔ PE2 x y) → r1 = r2.
Proof using Hi.
  intros (g & -> & Rg & Vg & Ag) (h & -> & Rh & Vh & Ah) HV HE. f_equal. apply (reachable_same Hi Hi); [done|done| |].
  - intros x. by rewrite Vg, Vh.
  - intros x y. by rewrite Ag, Ah.
Qed.
Lemma produces_invert (r : res editgraph) PV PE : produces r PV PE →
  produces (g ← r; invert (eg_graph g)) PV (λ x y, PV x ∧ PV y ∧ x ≠ y ∧ ¬ PE x y).
Proof using Hi.
  intros (g & -> & Rg & Vg & Ag). destruct (C27_invert (eg_graph g) (C10_reachable_wf g Rg)) as (h & Eh & Rh & Vh & Ah).
  exists h. split_and!; [exact Eh|done| |].
  - intros x. rewrite Vh. apply Vg.
  - intros x y. rewrite Ah. cbn. rewrite !Vg, <- not_true_iff_false, Ag. tauto.
Qed.

Theorem C92_complements (n s t : N) :
  (g ← eg_clique n; invert (eg_graph g)) = Ok (eg_independent n) ∧
  invert (eg_graph (eg_independent n)) = eg_clique n ∧
  ((0 < s)%N → (0 < t)%N → (s + t < 4294967296)%N →
   (g ← eg_biclique s t; invert (eg_graph g)) = (a ← eg_clique s; b ← eg_clique t; eg_disj_union a (eg_graph b))).
Proof.
  split_and!.
  - eapply same_run; [apply produces_invert, C15_clique|apply C15_independent|done|]. intros x y. cbn. split; [|done].
    intros (Hx & Hy & Hne & Hn). apply Hn. split_and!; done.
  - apply (same_run (g ← Ok (eg_independent n); invert (eg_graph g)) (eg_clique n) _ _ _ _ (produces_invert _ _ _ (C15_independent n)) (C15_clique n)); [done|].
    intros x y. tauto.
  - intros Hs Ht Hst. eapply same_run; [apply produces_invert, C15_biclique_partial; done| |reflexivity|reflexivity].
    destruct (C15_clique s) as (a & Ea & Ra & Va & Aa), (C15_clique t) as (b & Eb & Rb & Vb & Ab). rewrite Ea, Eb. cbn [mbind res_bind].
    destruct (eg_disj_union_spec a (eg_graph b)) as (h & off & Eh & Wh & Hoff & Hle & Vh & Ah & _).
    + by apply eg_reachable_wf.
    + by apply C10_reachable_wf.
    + intros v Hv%Vb. lia.
    + intros u v Hu%Va Hv%Vb. lia.
    + assert (off = s) as ->.
      { apply N.le_antisymm.
        - apply Hle; [|exists 0%N; by apply Vb]. intros u Hu%Va. lia.
        - assert (s - 1 < off)%N; [|lia]. apply (Hoff (s - 1)%N 0%N); [by apply Vb|apply Va; lia]. }
      exists h. split_and!; [done|by apply eg_reachable_wf| |].
      * intros x. rewrite (Vh x). split.
        -- intros [Hx%Va|(v & Hv%Vb & ->)]; lia.
        -- intros Hx. destruct (decide (x < s)%N); [left; by apply Va|]. right. exists (x - s)%N. split; [apply Vb|]; lia.
      * intros x y. rewrite (Ah x y). split.
        -- intros [Hx%Aa|(u & v & Huv%Ab & -> & ->)]; lia.
        -- intros (Hx & Hy & Hne & Hn). destruct (decide (x < s)%N).
           ++ left. apply Aa. lia.
           ++ right. exists (x - s)%N, (y - s)%N. split_and!; [apply Ab; lia|lia..].
Qed.

Lemma in_part_two s t i x : in_part 0 [s; t] i x ↔ (i = 0 ∧ (x < s)%N) ∨ (i = 1 ∧ (s <= x < s + t)%N).
Proof.
  destruct i as [|[|i]]; cbn.
  - split; [intros; left; split; [done|lia]|intros [[_ ?]|[? _]]; [lia|done]].
  - split; [intros; right; split; [done|lia]|intros [[? _]|[_ ?]]; [done|lia]].
  - split; [done|]. intros [[? _]|[? _]]; done.
Qed.
Lemma in_part_ones l n i x : in_part l (replicate n 1%N) i x ↔ i < n ∧ x = (l + N.of_nat i)%N.
Proof.
  revert l i. induction n as [|n IH]; intros l i; cbn; [split; [done|lia]|]. destruct i as [|i]; [lia|].
  rewrite IH. lia.
Qed.
Lemma sumN_ones n : sumN (replicate n 1%N) = N.of_nat n.
Proof. induction n as [|n IH]; [done|]. cbn [replicate]. change (sumN (1%N :: replicate n 1%N)) with (1 + sumN (replicate n 1%N))%N. rewrite IH. lia. Qed.

Lemma grid_row n x y : grid_adj 1 n x y ↔ (y = x + 1 ∧ x + 1 < n)%N.
Proof.
  split.
  - intros (r & c & Hr & Hc & -> & [[-> ?]|[-> ?]]); [|lia]. assert (r = 0%N) as -> by lia. lia.
  - intros [-> Hx]. exists 0%N, x. split_and!; [lia..|]. left. lia.
Qed.
Lemma grid_col n x y : grid_adj n 1 x y ↔ (y = x + 1 ∧ x + 1 < n)%N.
Proof.
  split.
  - intros (r & c & Hr & Hc & -> & [[-> ?]|[-> ?]]); lia.
  - intros [-> Hx]. exists x, 0%N. split_and!; [lia..|]. right. lia.
Qed.
Lemma grid_produces s t : (s * t < 4294967296)%N →
  produces (eg_grid s t) (λ x, x < s * t ∧ s * t ≠ 1)%N (λ x y, grid_adj s t x y ∨ grid_adj s t y x).
Proof using Hi.
  intros Hst. destruct (eg_grid_spec s t Hst) as (g & Eg & Wg & Vg & Ag). exists g. split_and!; [done|by apply eg_reachable_wf|exact Vg|exact Ag].
Qed.

Theorem C92_same_generators (n s t : N) :
  ((0 < s)%N → (0 < t)%N → (s + t < 4294967296)%N → eg_complete_kpartite [s; t] = eg_biclique s t) ∧
  ((2 <= n < 4294967296)%N → eg_complete_kpartite (replicate (N.to_nat n) 1%N) = eg_clique n) ∧
  ((2 <= n < 4294967296)%N → eg_grid 1 n = eg_path n ∧ eg_grid n 1 = eg_path n) ∧
  eg_cycle 3 = eg_clique 3 ∧ eg_path 2 = eg_clique 2.
Proof.
  split_and!.
  - intros Hs Ht Hst. eapply same_run; [apply C15_complete_kpartite_partial|by apply C15_biclique_partial| |].
    + unfold sumN. cbn. lia.
    + by exists 0, 1, s, t.
    + intros x. unfold sumN. cbn. rewrite N.add_0_r. done.
    + intros x y. setoid_rewrite in_part_two. split.
      * intros (i & j & Hne & [[-> ?]|[-> ?]] & [[-> ?]|[-> ?]]); [done|left; lia|right; lia|done].
      * intros [[? ?]|[? ?]]; [exists 0, 1|exists 1, 0]; (split; [done|split; [by auto|by auto]]).
  - intros Hn. eapply same_run; [apply C15_complete_kpartite_partial|apply C15_clique| |].
    + rewrite sumN_ones. lia.
    + exists 0, 1, 1%N, 1%N. rewrite !lookup_replicate. split_and!; lia.
    + intros x. rewrite sumN_ones, N2Nat.id. done.
    + intros x y. setoid_rewrite in_part_ones. split.
      * intros (i & j & Hne & [? ->] & [? ->]). lia.
      * intros (Hx & Hy & Hne). exists (N.to_nat x), (N.to_nat y). lia.
  - intros Hn. split; (eapply same_run; [apply grid_produces; lia|apply C15_path|intros x; cbv beta; lia|]); intros x y; cbv beta.
    + rewrite !grid_row. lia.
    + rewrite !grid_col. lia.
  - eapply same_run; [apply C15_cycle|apply C15_clique|done|]. intros x y. cbv beta. split.
    + intros (Hx & Hy & Hd). split_and!; [done..|]. intros ->.
      assert (y = 0 ∨ y = 1 ∨ y = 2)%N as [->|[->| ->]] by lia; by destruct Hd.
    + intros (Hx & Hy & Hd). split_and!; [done..|].
      assert (x = 0 ∨ x = 1 ∨ x = 2)%N as [->|[->| ->]] by lia; assert (y = 0 ∨ y = 1 ∨ y = 2)%N as [->|[->| ->]] by lia; first [by destruct (Hd eq_refl)|by left|by right].
  - eapply same_run; [apply C15_path|apply C15_clique|done|]. intros x y. cbv beta. lia.
Qed.

(** A cycle is a path closed by one edge, and loses it with its last vertex. *)
Theorem C92_cycle_path (n : N) : (3 <= n)%N →
  (g ← eg_path n; r ← eg_add_edge g 0 (n - 1); Ok r.1) = eg_cycle n ∧
  (g ← eg_cycle n; r ← eg_remove_vertex g (n - 1); Ok r.1) = eg_path (n - 1) ∧
  ∃ p c k, eg_path n = Ok p ∧ eg_cycle n = Ok c ∧ eg_clique n = Ok k ∧
    compare_subgraph (eg_graph p) (eg_graph c) = Ok RelSub ∧
    compare_subgraph (eg_graph k) (eg_graph c) = Ok (if decide (n = 3%N) then RelEq else RelSup).
Proof.
  intros Hn. destruct (C15_path n) as (p & Ep & Rp & Vp & Ap), (C15_cycle n) as (c & Ec & Rc & Vc & Ac'), (C15_clique n) as (k & Ek & Rk & Vk & Ak).
  assert (∀ x y, eg_adjacent c x y = true ↔ (x < n ∧ y < n ∧ (y = x + 1 ∨ x = y + 1 ∨ (x = 0 ∧ y = n - 1) ∨ (y = 0 ∧ x = n - 1)))%N) as Ac.
  { assert (∀ a, (a < n → (a + 1 < n ∧ (a + 1) mod n = a + 1) ∨ (a = n - 1 ∧ (a + 1) mod n = 0))%N) as Hm.
    { intros a Ha. destruct (decide (a + 1 = n)%N) as [E|].
      - right. split; [lia|]. rewrite E. apply N.mod_same. lia.
      - left. split; [lia|]. apply N.mod_small. lia. }
    intros x y. rewrite Ac'. split.
    - intros (Hx & Hy & Hd). split_and!; [done..|]. destruct (Hm x Hx) as [[? E1]|[? E1]], (Hm y Hy) as [[? E2]|[? E2]]; rewrite E1, E2 in Hd; lia.
    - intros (Hx & Hy & Hd). split_and!; [done..|]. destruct (Hm x Hx) as [[? E1]|[? E1]], (Hm y Hy) as [[? E2]|[? E2]]; rewrite E1, E2; lia. }
  clear Ac'. split_and!.
  - rewrite Ep, Ec. cbn [mbind res_bind]. destruct (eg_add_edge_spec p 0 (n - 1)) as (h & Eh & Wh & Vh & Ah & _); [by apply eg_reachable_wf|].
    rewrite Eh. cbn [mbind res_bind fst]. f_equal. apply (reachable_same Hi Hi); [by apply eg_reachable_wf|done| |].
    + intros x. rewrite (Vh x). unfold ev. rewrite Vp, Vc. lia.
    + intros x y. rewrite (Ah x y). unfold ea. rewrite Ap, Ac. lia.
  - rewrite Ec. cbn [mbind res_bind]. destruct (eg_remove_vertex_spec c (n - 1)) as (h & Eh & Wh & Vh & Ah); [by apply eg_reachable_wf|].
    rewrite Eh. cbn [mbind res_bind fst]. destruct (C15_path (n - 1)) as (q & Eq & Rq & Vq & Aq). rewrite Eq. f_equal.
    apply (reachable_same Hi Hi); [by apply eg_reachable_wf|done| |].
    + intros x. rewrite (Vh x), Vq. unfold ev. rewrite Vc. lia.
    + intros x y. rewrite (Ah x y). unfold ea. rewrite Ac, Aq. lia.
  - exists p, c, k. split_and!; [done..| |].
    + destruct (C33_compare _ _ (C10_reachable_wf p Rp) (C10_reachable_wf c Rc)) as (r & -> & _ & A2 & _). f_equal. apply A2. cbn. split; [split|].
      * intros x Hx%Vp. by apply Vc.
      * intros x y Hx%Ap. apply Ac. lia.
      * intros [_ HE]. assert (eg_adjacent p 0 (n - 1) = true) as Hx%Ap; [|lia]. apply HE, Ac. lia.
    + destruct (C33_compare _ _ (C10_reachable_wf k Rk) (C10_reachable_wf c Rc)) as (r & -> & A1 & _ & A3 & _). f_equal.
      assert ((∀ x, eg_contains c x = true → eg_contains k x = true) ∧ (∀ x y, eg_adjacent c x y = true → eg_adjacent k x y = true)) as Hck.
      { split; [intros x Hx%Vc; by apply Vk|intros x y Hx%Ac; apply Ak; lia]. }
      case_decide as E.
      * apply A1. cbn. split; [|done]. split; [intros x Hx%Vk; by apply Vc|intros x y Hx%Ak; apply Ac; lia].
      * apply A3. cbn. split; [|done]. intros [_ HE]. assert (eg_adjacent c 0 2 = true) as Hx%Ac; [|lia]. apply HE, Ak. lia.
Qed.
End generated.

(** ** Cases meeting the hypotheses, computed *)
Local Existing Instance std_iter.
Definition C92_report (r : res editgraph) : option (nat * bool * (nat * nat)) :=
  match r with
  | Ok g =>
      match components (eg_graph g), is_bipartite (eg_graph g), degeneracy (eg_graph g) with
      | Ok cs, Ok w, Ok (lo, up, _, _) => Some (length cs, match w with Bipartition _ _ => true | _ => false end, (lo, up))
      | _, _, _ => None
      end
  | _ => None
  end.
Example C92_ex_reports :
  C92_report (eg_path 6) = Some (1, true, (1, 1)) ∧ C92_report (eg_cycle 5) = Some (1, false, (2, 2)) ∧
  C92_report (eg_cycle 6) = Some (1, true, (2, 2)) ∧ C92_report (eg_clique 6) = Some (1, false, (5, 5)) ∧
  C92_report (Ok (eg_independent 4)) = Some (4, true, (0, 0)) ∧ C92_report (eg_matching 3) = Some (3, true, (1, 1)) ∧
  C92_report (eg_biclique 3 4) = Some (1, true, (3, 3)) ∧ C92_report (eg_grid 3 4) = Some (1, true, (2, 2)).
Proof. vm_compute. split_and!; reflexivity. Qed.
Example C92_ex_identities :
  eg_complete_kpartite [2; 3]%N = eg_biclique 2 3 ∧ eg_complete_kpartite [1; 1; 1; 1]%N = eg_clique 4 ∧ eg_grid 1 5 = eg_path 5 ∧
  (g ← eg_path 5; r ← eg_add_edge g 0 4; Ok r.1) = eg_cycle 5 ∧
  (g ← eg_biclique 2 3; invert (eg_graph g)) = (a ← eg_clique 2; b ← eg_clique 3; eg_disj_union a (eg_graph b)) ∧
  match eg_biclique 2 3 with Ok g => eg_num_edges g = 6 | _ => False end.
Proof.
  destruct (C92_same_generators 4 2 3) as (H1 & H2 & _), (C92_same_generators 5 2 3) as (_ & _ & H3 & _), (C92_complements 0 2 3) as (_ & _ & H4).
  assert (replicate (N.to_nat 4) 1%N = [1; 1; 1; 1]%N) as Hr by reflexivity. rewrite Hr in H2.
  assert (2 <= 4 < 4294967296)%N as B4 by lia. assert (2 <= 5 < 4294967296)%N as B5 by lia. assert (3 <= 5)%N as B3 by lia.
  split; [exact (H1 eq_refl eq_refl eq_refl)|]. split; [exact (H2 B4)|]. split; [exact (proj1 (H3 B5))|].
  split; [exact (proj1 (C92_cycle_path 5 B3))|]. split; [exact (H4 eq_refl eq_refl eq_refl)|]. vm_compute. reflexivity.
Qed.

Print Assumptions C92_path.
Print Assumptions C92_cycle.
Print Assumptions C92_clique.
Print Assumptions C92_independent.
Print Assumptions C92_matching.
Print Assumptions C92_biclique.
Print Assumptions C92_grid.
Print Assumptions C92_complements.
Print Assumptions C92_same_generators.
Print Assumptions C92_cycle_path.
