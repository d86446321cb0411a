(** C103: what the algorithms for linear graphs return on the generated graph families (editgraph.rs, algorithms/lineargraph.rs). *)
From Verif Require Import Base Spec M_Graph M_Iterators M_EditGraph M_OrdGraph M_Linear S_Graph S_Linear S_Reach S_Cliques
  P_EditGraph P_EditGraph2 P_Linear P_Cliques P_Cliques2 P_Generators P_Families T_EditGraph T_OrdGraph T_Linear T_Cliques T_Generated Examples.

(** The linear graph [L] has the vertices and edges of [g] (in whatever order, in whatever data structure). *)
Definition shows (L : lgraph) (g : editgraph) : Prop := lgraph_wf L ∧
  (∀ u, contains L u = true ↔ eg_contains g u = true) ∧ ∀ u v, adjacent L u v = true ↔ eg_adjacent g u v = true.

(** ** Counting cliques *)
(** A complete multipartite graph has one maximal clique for each choice of one vertex per part. *)
Theorem C103_multipartite (L : lgraph) ps : lgraph_wf L → ps ≠ [] → parts_disj ps → (∀ p, p ∈ ps → p ≠ [] ∧ NoDup p) →
  (∀ x, contains L x = true ↔ ∃ p, p ∈ ps ∧ x ∈ p) →
  (∀ x y, adjacent L x y = true ↔ ∃ i j p q, i ≠ j ∧ ps !! i = Some p ∧ x ∈ p ∧ ps !! j = Some q ∧ y ∈ q) →
  count_max_cliques L = Ok (prod_nat (length <$> ps)).
Proof. intros HL H1 H2 H3 H4 H5. by apply count_multipartite. Qed.
(** A triangle-free graph has its edges and its isolated vertices. *)
Theorem C103_triangle_free (L : lgraph) (I : gset N) : lgraph_wf L → (∀ x y z, adj L x y → adj L y z → ¬ adj L x z) →
  (∀ v, v ∈ I ↔ contains L v = true ∧ ∀ u, ¬ adj L v u) → count_max_cliques L = Ok (num_edges L + size I).
Proof. apply count_triangle_free. Qed.

Lemma no_isolated (L : lgraph) : lgraph_wf L → (∀ x y z, adj L x y → adj L y z → ¬ adj L x z) →
  (∀ v, contains L v = true → ∃ u, adj L v u) → count_max_cliques L = Ok (num_edges L).
Proof.
  intros HL Ht Hi. rewrite (count_triangle_free L ∅ HL Ht); [by rewrite size_empty, Nat.add_0_r|].
  intros v. split; [set_solver|]. intros [Hv Hn]. destruct (Hi v Hv) as [u Hu]. by destruct (Hn u).
Qed.
Lemma count_clique (L : lgraph) (vs : list N) : lgraph_wf L → vs ≠ [] → NoDup vs → (∀ x, contains L x = true ↔ x ∈ vs) →
  (∀ x y, adj L x y ↔ x ∈ vs ∧ y ∈ vs ∧ x ≠ y) → count_max_cliques L = Ok 1.
Proof.
  intros HL Hne Hnd HV HA. rewrite (count_multipartite L ((λ x, [x]) <$> vs) HL).
  - f_equal. clear. induction vs as [|x vs IH]; [done|]. cbn. unfold prod_nat in IH. rewrite IH. done.
  - by destruct vs.
  - intros i j p q x Hi Hj Hp Hq. rewrite list_lookup_fmap in Hi, Hj. apply fmap_Some in Hi as (a & Hi & ->), Hj as (b & Hj & ->).
    apply elem_of_list_singleton in Hp, Hq. subst. by eapply NoDup_lookup.
  - intros p (x & -> & _)%elem_of_list_fmap. split; [done|apply NoDup_singleton].
  - split.
    + intros x. unfold vtx. rewrite HV. setoid_rewrite elem_of_list_fmap. split.
      * intros Hx. exists [x]. split; [eauto|left].
      * intros (p & (y & -> & Hy) & ->%elem_of_list_singleton). done.
    + intros x y. rewrite HA. setoid_rewrite list_lookup_fmap. setoid_rewrite fmap_Some. split.
      * intros (Hx & Hy & Hxy). apply elem_of_list_lookup in Hx as [i Hi], Hy as [j Hj]. exists i, j, [x], [y].
        split_and!; [intros ->; by simplify_eq|eauto|left|eauto|left].
      * intros (i & j & p & q & Hij & (a & Hi & ->) & ->%elem_of_list_singleton & (b & Hj & ->) & ->%elem_of_list_singleton).
        split_and!; [by eapply elem_of_list_lookup_2|by eapply elem_of_list_lookup_2|]. intros ->. by apply Hij, (NoDup_lookup vs i j b).
Qed.
Lemma range_length lo hi : length (range lo hi) = N.to_nat (hi - lo).
Proof. unfold range. generalize (N.to_nat (hi - lo)). intros k. revert lo. induction k as [|k IH]; intros lo; [done|]. cbn. by rewrite IH. Qed.

Section with_iter.
Context `{HI : HashIter}.

Theorem C103_path (n : N) : (2 <= n)%N → ∃ g, eg_path n = Ok g ∧ ∀ L, shows L g → count_max_cliques L = Ok (N.to_nat (n - 1)).
Proof.
  intros Hn. destruct (C15_path n) as (g & Eg & _ & Vg & Ag). exists g. split; [done|]. intros L (HL & HV & HA).
  assert (∀ u v, adj L u v ↔ (u < n ∧ v < n ∧ (v = u + 1 ∨ u = v + 1))%N) as A by (intros u v; unfold adj; by rewrite HA, Ag). clear HA Ag.
  rewrite (no_isolated L HL).
  - f_equal. rewrite (edges_count L ((λ i, (i, (i + 1)%N)) <$> range 0 (n - 1)) (lwf_graph _ HL)); [by rewrite fmap_length, range_length, N.sub_0_r| |].
    + apply NoDup_fmap_2; [intros a b [=]; done|apply NoDup_range].
    + intros u v. rewrite A, elem_of_list_fmap. setoid_rewrite elem_of_range. split; [intros (i & [= -> ->] & Hi); lia|].
      intros (Hle & Hu & Hv & Hd). exists u. split; [f_equal; lia|lia].
  - intros x y z Hx%A Hy%A Hz%A. lia.
  - intros v Hv%HV%Vg. destruct (decide (v = 0)%N) as [->|Hv0]; [exists 1%N|exists (v - 1)%N]; apply A; lia.
Qed.

Lemma cycle_adj (g : editgraph) n : (3 <= n)%N → (∀ x y, eg_adjacent g x y = true ↔ (x < n ∧ y < n ∧ (y = (x + 1) mod n ∨ x = (y + 1) mod n))%N) →
  ∀ x y, eg_adjacent g x y = true ↔ (x < n ∧ y < n ∧ (y = x + 1 ∨ x = y + 1 ∨ (x = 0 ∧ y = n - 1) ∨ (y = 0 ∧ x = n - 1)))%N.
Proof.
  intros Hn Ag x y. rewrite Ag.
  assert (∀ a, (a < n → (a + 1 < n ∧ (a + 1) mod n = a + 1) ∨ (a = n - 1 ∧ (a + 1) mod n = 0))%N) as Hm.
  { intros a Ha. destruct (decide (a + 1 = n)%N) as [E|].
    - right. split; [lia|]. rewrite E. apply N.mod_same. lia.
    - left. split; [lia|]. apply N.mod_small. lia. }
  split; intros (Hx & Hy & Hd); destruct (Hm x Hx) as [[? E1]|[? E1]], (Hm y Hy) as [[? E2]|[? E2]]; rewrite ?E1, ?E2 in *; lia.
Qed.
Theorem C103_cycle (n : N) : (3 <= n)%N → ∃ g, eg_cycle n = Ok g ∧
  ∀ L, shows L g → count_max_cliques L = Ok (if decide (n = 3%N) then 1 else N.to_nat n).
Proof.
  intros Hn. destruct (C15_cycle n) as (g & Eg & _ & Vg & Ag). exists g. split; [done|]. intros L (HL & HV & HA).
  pose proof (cycle_adj g n Hn Ag) as Ag'. clear Ag.
  assert (∀ u v, adj L u v ↔ (u < n ∧ v < n ∧ (v = u + 1 ∨ u = v + 1 ∨ (u = 0 ∧ v = n - 1) ∨ (v = 0 ∧ u = n - 1)))%N) as A by (intros u v; unfold adj; by rewrite HA, Ag').
  clear HA Ag'. case_decide as E3.
  - subst n. apply (count_clique L (range 0 3) HL); [done|apply NoDup_range|intros x; rewrite HV, Vg, elem_of_range; lia|].
    intros x y. rewrite A, !elem_of_range. lia.
  - rewrite (no_isolated L HL).
    + f_equal. rewrite (edges_count L (((λ i, (i, (i + 1)%N)) <$> range 0 (n - 1)) ++ [(0%N, (n - 1)%N)]) (lwf_graph _ HL)).
      * rewrite app_length, fmap_length, range_length. cbn. lia.
      * apply NoDup_app. split_and!; [apply NoDup_fmap_2; [intros a b [=]; done|apply NoDup_range]| |apply NoDup_singleton].
        intros e (i & -> & Hi%elem_of_range)%elem_of_list_fmap He%elem_of_list_singleton. simplify_eq. lia.
      * intros u v. rewrite A, elem_of_app, elem_of_list_fmap, elem_of_list_singleton. setoid_rewrite elem_of_range. split.
        -- intros [(i & [= -> ->] & Hi)|[= -> ->]]; lia.
        -- intros (Hle & Hu & Hv & Hd). destruct (decide (v = u + 1)%N) as [->|Hne]; [left; exists u; split; [done|lia]|right; f_equal; lia].
    + intros x y z Hx%A Hy%A Hz%A. lia.
    + intros v Hv%HV%Vg. destruct (decide (v = 0)%N) as [->|Hv0]; [exists 1%N|exists (v - 1)%N]; apply A; lia.
Qed.
Theorem C103_matching (n : N) : (0 < n)%N → (2 * n <= 4294967296)%N → ∃ g, eg_matching n = Ok g ∧ ∀ L, shows L g → count_max_cliques L = Ok (N.to_nat n).
Proof.
  intros Hn H2n. destruct (C15_matching n H2n) as (g & Eg & _ & Vg & Ag). exists g. split; [done|]. intros L (HL & HV & HA).
  assert (∀ u v, adj L u v ↔ (u < 2 * n ∧ v < 2 * n ∧ (v = u + n ∨ u = v + n))%N) as A by (intros u v; unfold adj; by rewrite HA, Ag). clear HA Ag.
  rewrite (no_isolated L HL).
  - f_equal. rewrite (edges_count L ((λ i, (i, (i + n)%N)) <$> range 0 n) (lwf_graph _ HL)); [by rewrite fmap_length, range_length, N.sub_0_r| |].
    + apply NoDup_fmap_2; [intros a b [=]; done|apply NoDup_range].
    + intros u v. rewrite A, elem_of_list_fmap. setoid_rewrite elem_of_range. split; [intros (i & [= -> ->] & Hi); lia|].
      intros (Hle & Hu & Hv & Hd). exists u. split; [f_equal; lia|lia].
  - intros x y z Hx%A Hy%A Hz%A. lia.
  - intros v Hv%HV%Vg. destruct (decide (v < n)%N); [exists (v + n)%N|exists (v - n)%N]; apply A; lia.
Qed.
(** All pairs of two lists (statement and proof vocabulary). *)
Lemma pairs_list (rs cs : list N) : NoDup rs → NoDup cs → ∃ l : list (N * N), NoDup l ∧ length l = length rs * length cs ∧ ∀ r c, (r, c) ∈ l ↔ r ∈ rs ∧ c ∈ cs.
Proof.
  intros Hr Hc. exists (rs ≫= λ r, (λ c, (r, c)) <$> cs). split_and!.
  - induction rs as [|r rs IH]; [constructor|]. apply NoDup_cons in Hr as [Hnr Hr]. cbn. apply NoDup_app. split_and!; [|  |by apply IH].
    + apply NoDup_fmap_2; [intros a b [=]; done|done].
    + intros e (c & -> & _)%elem_of_list_fmap (r' & (c' & [=] & _)%elem_of_list_fmap & Hr')%elem_of_list_bind. by subst.
  - apply bind_length_const. intros r. by rewrite fmap_length.
  - intros r c. rewrite elem_of_list_bind. setoid_rewrite elem_of_list_fmap. split.
    + intros (r' & (c' & [= -> ->] & H1) & H2). done.
    + intros [H1 H2]. exists r. split; [exists c; done|done].
Qed.
(** Every edge of a grid is a maximal clique. *)
Theorem C103_grid (s t : N) : (2 <= s * t)%N → (s * t < 4294967296)%N → ∃ g, eg_grid s t = Ok g ∧
  ∀ L, shows L g → count_max_cliques L = Ok (N.to_nat (s * (t - 1) + (s - 1) * t)).
Proof.
  intros H2 Hst. destruct (C15_grid_partial s t Hst) as (g & Eg & _ & Vg & Ag); [lia|]. exists g. split; [done|]. intros L (HL & HV & HA).
  assert (∀ u v, adj L u v ↔ grid_adj s t u v ∨ grid_adj s t v u) as A by (intros u v; unfold adj; by rewrite HA, Ag). clear HA Ag.
  assert (∀ x y, grid_adj s t x y → N.odd (x / t + x mod t) ≠ N.odd (y / t + y mod t)) as Hgo.
  { intros x y (r & c & Hr & Hc & -> & [[-> Hb]|[-> Hb]]).
    - destruct (grid_div t r c Hc) as [-> ->], (grid_div t r (c + 1) Hb) as [-> ->].
      rewrite N.add_assoc, (N.add_1_r (r + c)), N.odd_succ, <- N.negb_odd. by destruct (N.odd _).
    - destruct (grid_div t r c Hc) as [-> ->], (grid_div t (r + 1) c Hc) as [-> ->].
      replace (r + 1 + c)%N with (N.succ (r + c)) by lia. rewrite N.odd_succ, <- N.negb_odd. by destruct (N.odd _). }
  assert (∀ x y, adj L x y → N.odd (x / t + x mod t) ≠ N.odd (y / t + y mod t)) as Hf.
  { intros x y [Hxy|Hxy]%A; [by apply Hgo|]. intros E. by apply (Hgo y x Hxy). }
  rewrite (no_isolated L HL).
  - f_equal. destruct (pairs_list (range 0 s) (range 0 (t - 1))) as (l1 & Hn1 & Hl1 & He1); [apply NoDup_range..|].
    destruct (pairs_list (range 0 (s - 1)) (range 0 t)) as (l2 & Hn2 & Hl2 & He2); [apply NoDup_range..|].
    rewrite !range_length, !N.sub_0_r in Hl1, Hl2. setoid_rewrite elem_of_range in He1. setoid_rewrite elem_of_range in He2.
    rewrite (edges_count L (((λ p : N * N, (p.1 * t + p.2, p.1 * t + (p.2 + 1))%N) <$> l1) ++ ((λ p : N * N, (p.1 * t + p.2, (p.1 + 1) * t + p.2)%N) <$> l2)) (lwf_graph _ HL)).
    + rewrite app_length, !fmap_length, Hl1, Hl2. lia.
    + apply NoDup_app. split_and!.
      * apply NoDup_fmap_2_strong; [|done]. intros [r c] [r' c'] H1%He1 H1'%He1 [= E _]. cbn [fst snd] in *.
        destruct (grid_div t r c) as [D1 M1]; [lia|]. destruct (grid_div t r' c') as [D2 M2]; [lia|]. rewrite E in D1, M1. f_equal; congruence.
      * intros e ([r c] & -> & H1%He1)%elem_of_list_fmap ([r' c'] & [= E E2] & H1'%He2)%elem_of_list_fmap. cbn [fst snd] in *. lia.
      * apply NoDup_fmap_2_strong; [|done]. intros [r c] [r' c'] H1%He2 H1'%He2 [= E _]. cbn [fst snd] in *.
        destruct (grid_div t r c) as [D1 M1]; [lia|]. destruct (grid_div t r' c') as [D2 M2]; [lia|]. rewrite E in D1, M1. f_equal; congruence.
    + intros u v. rewrite A, elem_of_app, !elem_of_list_fmap. split.
      * intros [([r c] & [= -> ->] & H1%He1)|([r c] & [= -> ->] & H1%He2)]; cbn [fst snd]; (split; [lia|]); left; exists r, c; (split_and!; [lia..|]).
        -- left. lia.
        -- right. lia.
      * intros [Hle [(r & c & Hr & Hc & -> & [[-> Hb]|[-> Hb]])|(r & c & Hr & Hc & -> & [[-> Hb]|[-> Hb]])]]; [| |lia|lia].
        -- left. exists (r, c). split; [done|]. apply He1. lia.
        -- right. exists (r, c). split; [done|]. apply He2. lia.
  - intros x y z H1%Hf H3%Hf H4%Hf. destruct (N.odd (x / t + _)), (N.odd (y / t + _)), (N.odd (z / t + _)); congruence.
  - intros v Hv%HV%Vg. assert (0 < t ∧ 0 < s)%N as [Ht Hs] by nia. pose proof (N.mod_lt v t ltac:(lia)) as Hc.
    assert (v / t < s)%N as Hr by (apply N.div_lt_upper_bound; lia). pose proof (N.div_mod v t ltac:(lia)) as Hd. rewrite (N.mul_comm t) in Hd.
    set (r := (v / t)%N) in *. set (c := (v mod t)%N) in *. setoid_rewrite A. rewrite Hd.
    destruct (decide (c + 1 < t)%N); [eexists; left; exists r, c; split_and!; [lia..|left; split; [reflexivity|done]]|].
    destruct (decide (0 < c)%N); [exists (r * t + (c - 1))%N; right; exists r, (c - 1)%N; split_and!; [lia..|left; split; [f_equal; lia|lia]]|].
    destruct (decide (r + 1 < s)%N); [eexists; left; exists r, c; split_and!; [lia..|right; split; [reflexivity|done]]|].
    exists ((r - 1) * t + c)%N. right. exists (r - 1)%N, c. assert (t = 1)%N as Ht1 by lia. assert (0 < r)%N by nia. split_and!; [lia..|right; split; [|lia]].
    rewrite N.sub_add by lia. lia.
Qed.

Theorem C103_clique (n : N) : (0 < n)%N → ∃ g, eg_clique n = Ok g ∧ ∀ L, shows L g → count_max_cliques L = Ok 1.
Proof.
  intros Hn. destruct (C15_clique n) as (g & Eg & _ & Vg & Ag). exists g. split; [done|]. intros L (HL & HV & HA).
  apply (count_clique L (range 0 n) HL).
  - intros E. assert (0%N ∈ range 0 n) as H0 by (apply elem_of_range; lia). rewrite E in H0. by apply elem_of_nil in H0.
  - apply NoDup_range.
  - intros x. rewrite HV, Vg, elem_of_range. lia.
  - intros x y. unfold adj. rewrite HA, Ag, !elem_of_range. lia.
Qed.
Theorem C103_independent (n : N) : (0 < n)%N → ∀ L, shows L (eg_independent n) → count_max_cliques L = Ok (N.to_nat n).
Proof.
  intros Hn L (HL & HV & HA). destruct (C15_independent n) as (g & [= <-] & _ & Vg & Ag).
  rewrite (count_multipartite L [range 0 n] HL); [cbn; rewrite range_length, Nat.mul_1_r; f_equal; lia|done| | |split].
  - intros i j p q x Hi%list_lookup_singleton_Some Hj%list_lookup_singleton_Some _ _. destruct Hi as [-> _], Hj as [-> _]. done.
  - intros p ->%elem_of_list_singleton. split; [|apply NoDup_range].
    intros E. assert (0%N ∈ range 0 n) as H0 by (apply elem_of_range; lia). rewrite E in H0. by apply elem_of_nil in H0.
  - intros x. unfold vtx. rewrite HV, Vg. split; [intros Hx; exists (range 0 n); split; [left|apply elem_of_range; lia]|].
    intros (p & ->%elem_of_list_singleton & Hx%elem_of_range). lia.
  - intros x y. unfold adj. rewrite HA, Ag. split; [done|]. intros (i & j & p & q & Hij & Hi%list_lookup_singleton_Some & _ & Hj%list_lookup_singleton_Some & _).
    destruct Hi as [-> _], Hj as [-> _]. done.
Qed.

(** The consecutive blocks of the given sizes (proof vocabulary). *)
Fixpoint blocks (l : N) (sizes : list N) : list (list N) :=
  match sizes with [] => [] | s :: sizes => range l (l + s) :: blocks (l + s) sizes end.
Lemma blocks_in_part l sizes i x : in_part l sizes i x ↔ ∃ p, blocks l sizes !! i = Some p ∧ x ∈ p.
Proof.
  revert l i. induction sizes as [|s sizes IH]; intros l i; cbn; [split; [done|]; intros (p & Hp & _); done|].
  destruct i as [|i]; cbn; [|apply IH]. split; [intros Hx; eexists; split; [done|by apply elem_of_range]|]. intros (p & [= <-] & Hx%elem_of_range). done.
Qed.
Lemma in_part_low l sizes i x : in_part l sizes i x → (l <= x < l + sumN sizes)%N.
Proof.
  revert l i. induction sizes as [|s sizes IH]; intros l [|i]; cbn [in_part]; [done|done| |]; change (sumN (s :: sizes)) with (s + sumN sizes)%N; [lia|].
  intros Hx%IH. lia.
Qed.
Lemma in_part_fun l sizes i j x : in_part l sizes i x → in_part l sizes j x → i = j.
Proof.
  revert l i j. induction sizes as [|s sizes IH]; intros l [|i] [|j]; cbn [in_part]; try done; intros Hi Hj.
  - apply in_part_low in Hj. lia.
  - apply in_part_low in Hi. lia.
  - f_equal. by eapply IH.
Qed.
Lemma in_part_ex l sizes x : (l <= x < l + sumN sizes)%N → ∃ i, in_part l sizes i x.
Proof.
  revert l. induction sizes as [|s sizes IH]; intros l; [cbn; lia|]. change (sumN (s :: sizes)) with (s + sumN sizes)%N. intros Hx.
  destruct (decide (x < l + s)%N); [exists 0; cbn; lia|]. destruct (IH (l + s)%N) as [i Hi]; [lia|]. by exists (S i).
Qed.
Theorem C103_complete_kpartite (sizes : list N) : 2 ≤ length sizes → (∀ s, s ∈ sizes → (0 < s)%N) → (sumN sizes < 4294967296)%N →
  ∃ g, eg_complete_kpartite sizes = Ok g ∧ ∀ L, shows L g → count_max_cliques L = Ok (prod_nat (N.to_nat <$> sizes)).
Proof.
  intros Hlen Hpos Hsum. destruct (C15_complete_kpartite_partial sizes Hsum) as (g & Eg & _ & Vg & Ag).
  { destruct sizes as [|a [|b sizes]]; [cbn in Hlen; lia..|]. exists 0, 1, a, b. split_and!; [done|done|done|apply Hpos; left|apply Hpos; right; left]. }
  exists g. split; [done|]. intros L (HL & HV & HA).
  assert (length <$> blocks 0 sizes = N.to_nat <$> sizes) as Hbl.
  { generalize 0%N. clear. induction sizes as [|s sizes IH]; intros l; [done|]. cbn. rewrite range_length, IH. f_equal. lia. }
  rewrite <- Hbl. apply (count_multipartite L (blocks 0 sizes) HL).
  - destruct sizes; [cbn in Hlen; lia|done].
  - intros i j p q x Hi Hj Hp Hq. apply (in_part_fun 0 sizes i j x); apply blocks_in_part; eauto.
  - intros p Hp. assert (∃ l s, (0 < s)%N ∧ p = range l (l + s)) as (l & s & Hs & ->).
    { clear -Hp Hpos. remember 0%N as l0 eqn:El0 in Hp. clear El0. revert l0 Hp Hpos. induction sizes as [|s sizes IH]; intros l Hp Hpos; cbn in Hp; [by apply elem_of_nil in Hp|].
      apply elem_of_cons in Hp as [->|Hp]; [exists l, s; split; [apply Hpos; left|done]|]. eapply IH; [exact Hp|]. intros s' Hs'. apply Hpos. by right. }
    split; [|apply NoDup_range]. intros E. assert (l ∈ range l (l + s)) as H0 by (apply elem_of_range; lia). rewrite E in H0. by apply elem_of_nil in H0.
  - split.
    + intros x. unfold vtx. rewrite HV, Vg. split.
      * intros Hx. destruct (in_part_ex 0 sizes x) as [i (p & Hp & Hxp)%blocks_in_part]; [lia|]. exists p. split; [by eapply elem_of_list_lookup_2|done].
      * intros (p & [i Hi]%elem_of_list_lookup & Hx). assert (in_part 0 sizes i x) as Hin by (apply blocks_in_part; eauto). apply in_part_low in Hin. lia.
    + intros x y. unfold adj. rewrite HA, Ag. setoid_rewrite blocks_in_part. split.
      * intros (i & j & Hij & (p & Hi & Hx) & (q & Hj & Hy)). exists i, j, p, q. done.
      * intros (i & j & p & q & Hij & Hi & Hx & Hj & Hy). exists i, j. split_and!; [done|eauto|eauto].
Qed.
Theorem C103_biclique (s t : N) : (0 < s)%N → (0 < t)%N → (s + t < 4294967296)%N →
  ∃ g, eg_biclique s t = Ok g ∧ ∀ L, shows L g → count_max_cliques L = Ok (N.to_nat (s * t)).
Proof.
  intros Hs Ht Hst. destruct (C103_complete_kpartite [s; t]) as (g & Eg & HL); [done|intros x; rewrite !elem_of_cons, elem_of_nil; lia|cbn; lia|].
  exists g. split; [by rewrite <- (proj1 (C92_same_generators s s t))|]. intros L Hsh. rewrite (HL L Hsh). f_equal. cbn. lia.
Qed.

(** ** Reachability: paths from left to right, and cliques in any order *)
Lemma before_range n u v : before (range 0 n) u v ↔ (u < v < n)%N.
Proof.
  assert (∀ i x, range 0 n !! i = Some x ↔ (x = N.of_nat i ∧ x < n)%N) as Hl.
  { intros i x. unfold range. rewrite N.sub_0_r. 
    assert (∀ k l i x, nrange l k !! i = Some x ↔ x = (l + N.of_nat i)%N ∧ i < k) as Hk.
    { induction k as [|k IH]; intros l [|j] y; cbn; [split; [done|lia]..| |].
      - split; [intros [= <-]; lia|]. intros [-> _]. f_equal. lia.
      - rewrite IH. lia. }
    rewrite Hk. lia. }
  unfold before, pos. setoid_rewrite Hl. split; [intros (i & j & H1 & H2 & H3); lia|]. intros Huv. exists (N.to_nat u), (N.to_nat v). lia.
Qed.
Theorem C103_path_reach (n : N) (L : lgraph) g (r : nat) : eg_path n = Ok g → shows L g → vertices L = range 0 n → 1 ≤ r → (N.of_nat r + 1 < u32_mod)%N →
  ∃ mw ms, wreach_sets L r = Ok mw ∧ sreach_sets L r = Ok ms ∧ ∀ u, (u < n)%N →
    (∃ w, mw !! u = Some w ∧ ∀ v k, w !! v = Some k ↔ (u = v + N.of_nat k)%N ∧ 1 ≤ k ≤ r) ∧
    (∃ s, ms !! u = Some s ∧ ∀ v k, s !! v = Some k ↔ (u = v + 1)%N ∧ k = 1).
Proof.
  intros Eg (HL & HV & HA) Hvs Hr Hr2. destruct (C15_path n) as (g' & Eg' & _ & Vg & Ag). rewrite Eg in Eg'. injection Eg' as <-.
  assert (∀ u v, adj L u v ↔ (u < n ∧ v < n ∧ (v = u + 1 ∨ u = v + 1))%N) as A by (intros u v; unfold adj; by rewrite HA, Ag). clear HA Ag.
  destruct (C42_wreach_sets L r HL Hr2) as (mw & Hmw & Hw & _). destruct (C41_sreach_sets_sizes L r HL Hr) as (ms & ks & Hms & _ & Hs & _); [lia|].
  assert (∀ u x, not_left L u x ↔ x = u ∨ (u < x < n)%N) as Hnl by (intros u x; unfold not_left; by rewrite Hvs, before_range).
  assert (∀ p u v, head p = Some u → last p = Some v → walk (adj L) p → (u + 1 <= v + N.of_nat (length p))%N) as Hwalk.
  { induction p as [|x p IH]; intros u v Hh Hl Hwk; [done|]. cbn in Hh. simplify_eq. destruct p as [|y p].
    - cbn in Hl. simplify_eq. cbn. lia.
    - destruct Hwk as [Hxy%A Hwk]. specialize (IH y v eq_refl Hl Hwk). cbn [length] in *. lia. }
  exists mw, ms. split_and!; [done|done|]. intros u Hu. assert (contains L u = true) as Hcu by (by apply HV, Vg). split.
  - destruct (Hw u Hcu) as (w & Hwu & Hspec). exists w. split; [done|]. intros v k. rewrite (Hspec v k), Hvs, before_range.
    assert (∀ d, (v + N.of_nat d < n)%N → wreach_walk L (v + N.of_nat d) v d) as Hdown.
    { intros d. induction d as [|d IH]; intros Hd.
      - exists [v]. split_and!; [done|cbn; f_equal; lia|done|done|]. intros y ->%elem_of_list_singleton. by left.
      - destruct IH as (p & Hp & Hh & Hl & Hwk & Hnl'); [lia|]. destruct p as [|x p]; [done|]. cbn in Hh. simplify_eq.
        exists ((v + N.of_nat (S d))%N :: (v + N.of_nat d)%N :: p). split_and!; [cbn in *; lia|done|done| |].
        + split; [apply A; lia|done].
        + intros y [->|Hy]%elem_of_cons; [apply Hnl; lia|by apply Hnl']. }
    split.
    + intros (Hlt & Hk & Hwk & Hmin). assert (k ≤ N.to_nat (u - v)) as Hle.
      { apply Hmin. pose proof (Hdown (N.to_nat (u - v))) as Hd. replace (v + N.of_nat (N.to_nat (u - v)))%N with u in Hd by lia. apply Hd. lia. }
      destruct Hwk as (p & Hp & Hh & Hl & Hwk & _). pose proof (Hwalk p u v Hh Hl Hwk) as Hb. rewrite Hp in Hb. lia.
    + intros [-> Hk]. split_and!; [lia|lia|lia|]. split; [apply Hdown; lia|]. intros j (p & Hp & Hh & Hl & Hwk & _).
      pose proof (Hwalk p _ v Hh Hl Hwk) as Hb. rewrite Hp in Hb. lia.
  - destruct (Hs u Hcu) as (s & Hsu & _ & Hspec). exists s. split; [done|]. intros x k. rewrite (Hspec x k), Hvs, before_range.
    assert (∀ j, (x < u)%N → sreach_walk L u x j → (u = x + 1)%N ∧ 1 ≤ j) as Hstep.
    { intros j Hx (q & Hq & Hh & Hwk & Hnl'). destruct q as [|y0 q0] eqn:Eq; [cbn in Hh; simplify_eq; lia|]. rewrite <- Eq in *. split; [|rewrite <- Hq, Eq; cbn; lia].
      assert (∃ q1 y, q = q1 ++ [y]) as (q1 & y & ->) by (rewrite Eq; destruct (exists_last (l := y0 :: q0)) as (q1 & y & ?); [done|eauto]).
      assert (adj L y x) as Hyx%A.
      { clear -Hwk. rewrite <- app_assoc in Hwk. cbn in Hwk. revert Hwk. induction q1 as [|a q1 IH]; cbn; [tauto|]. destruct q1; cbn in *; tauto. }
      assert (not_left L u y) as Hy%Hnl by (apply Hnl'; set_solver). lia. }
    split.
    + intros (Hlt & Hk & Hwk & Hmin). destruct (Hstep k) as [Hux _]; [lia|done|]. split; [done|]. assert (k ≤ 1); [|lia]. apply Hmin.
      exists [u]. split_and!; [done|done|split; [apply A; lia|done]|]. intros y ->%elem_of_list_singleton. by left.
    + intros [-> ->]. split_and!; [lia|lia|lia|lia|]. split.
      * exists [(x + 1)%N]. split_and!; [done|done|split; [apply A; lia|done]|]. intros y ->%elem_of_list_singleton. by left.
      * intros j Hj. apply Hstep in Hj; lia.
Qed.
Theorem C103_clique_reach (n : N) (L : lgraph) g (r : nat) : eg_clique n = Ok g → shows L g → 1 ≤ r → (N.of_nat r + 1 < u32_mod)%N →
  ∃ mw ms, wreach_sets L r = Ok mw ∧ sreach_sets L r = Ok ms ∧ ∀ u, (u < n)%N →
    (∃ w, mw !! u = Some w ∧ ms !! u = Some w ∧ ∀ v k, w !! v = Some k ↔ before (vertices L) v u ∧ k = 1).
Proof.
  intros Eg (HL & HV & HA) Hr Hr2. destruct (C15_clique n) as (g' & Eg' & _ & Vg & Ag). rewrite Eg in Eg'. injection Eg' as <-.
  assert (∀ u v, adj L u v ↔ (u < n ∧ v < n ∧ u ≠ v)%N) as A by (intros u v; unfold adj; by rewrite HA, Ag). clear HA Ag.
  destruct (C42_wreach_sets L r HL Hr2) as (mw & Hmw & Hw & _). destruct (C41_sreach_sets_sizes L r HL Hr) as (ms & ks & Hms & _ & Hs & _); [lia|].
  pose proof (vs_nodup _ HL) as Hnd.
  assert (∀ v u, before (vertices L) v u → (v < n ∧ u < n ∧ v ≠ u)%N) as Hb.
  { intros v u (i & j & Hi & Hj & Hij). assert (∀ z k, vertices L !! k = Some z → (z < n)%N) as Hz.
    { intros z k Hk. apply Vg, HV, (vs_vtx _ HL). by eapply elem_of_list_lookup_2. }
    split_and!; [by eapply Hz|by eapply Hz|]. intros ->. pose proof (NoDup_lookup _ _ _ _ Hnd Hi Hj). lia. }
  exists mw, ms. split_and!; [done|done|]. intros u Hu. assert (contains L u = true) as Hcu by (by apply HV, Vg).
  destruct (Hw u Hcu) as (w & Hwu & Hspec). destruct (Hs u Hcu) as (s & Hsu & _ & Hspec'). exists w.
  assert (∀ v k, w !! v = Some k ↔ before (vertices L) v u ∧ k = 1) as H1.
  { intros v k. rewrite (Hspec v k). split.
    - intros (Hv & Hk & Hwk & Hmin). split; [done|]. assert (k ≤ 1).
      { apply Hmin. exists [u; v]. split_and!; [done|done|done|split; [|done]|].
        - apply A. destruct (Hb v u Hv) as (? & ? & ?). done.
        - intros y Hy. rewrite !elem_of_cons, elem_of_nil in Hy. destruct Hy as [->|[->|[]]]; [by right|by left]. }
      destruct k as [|k]; [|lia]. destruct Hwk as (p & Hp & Hh & Hl & _). destruct p as [|a [|b p]]; [done| |done]. cbn in Hh, Hl. simplify_eq. by destruct (Hb _ _ Hv) as (_ & _ & ?).
    - intros [Hv ->]. split_and!; [done|done|]. split.
      + exists [u; v]. split_and!; [done|done|done|split; [|done]|].
        * apply A. destruct (Hb v u Hv) as (? & ? & ?). done.
        * intros y Hy. rewrite !elem_of_cons, elem_of_nil in Hy. destruct Hy as [->|[->|[]]]; [by right|by left].
      + intros j (p & Hp & Hh & Hl & _). destruct j; [|lia]. destruct p as [|a [|b p]]; [done| |done]. cbn in Hh, Hl. simplify_eq. by destruct (Hb _ _ Hv) as (_ & _ & ?). }
  split_and!; [done| |done]. rewrite Hsu. f_equal. apply map_eq. intros v. apply option_eq. intros k. rewrite H1, (Hspec' v k). split.
  - intros (Hv & Hk & Hwk & Hmin). split; [done|]. assert (k ≤ 1); [|lia]. apply Hmin.
    exists [u]. split_and!; [done|done|split; [|done]|].
    + apply A. destruct (Hb v u Hv) as (? & ? & ?). done.
    + intros y ->%elem_of_list_singleton. by left.
  - intros [Hv ->]. split_and!; [done|lia|lia|]. split.
    + exists [u]. split_and!; [done|done|split; [|done]|].
      * apply A. destruct (Hb v u Hv) as (? & ? & ?). done.
      * intros y ->%elem_of_list_singleton. by left.
    + intros j (q & Hq & Hh & _). destruct j; [|lia]. destruct q; [|done]. cbn in Hh. simplify_eq. by destruct (Hb _ _ Hv) as (_ & _ & ?).
Qed.
Lemma map_size_list {A} (w : gmap N A) (l : list N) : NoDup l → (∀ v, v ∈ l ↔ is_Some (w !! v)) → size w = length l.
Proof.
  intros Hnd Hl. rewrite <- (size_dom (D := gset N)). change (length (elements (dom w : gset N)) = length l). apply Permutation_length, NoDup_Permutation; [apply NoDup_elements|done|].
  intros v. by rewrite elem_of_elements, elem_of_dom, Hl.
Qed.
(** The sizes: on the path vertex [u] weakly reaches [min r u] vertices and strongly reaches one unless it is the first; on a clique, in any
    order, a vertex reaches exactly the vertices before it. *)
Theorem C103_path_sizes (n : N) (L : lgraph) g (r : nat) : eg_path n = Ok g → shows L g → vertices L = range 0 n → 1 ≤ r → (N.of_nat r + 1 < u32_mod)%N →
  ∃ kw ks, wreach_sizes L r = Ok kw ∧ sreach_sizes L r = Ok ks ∧ ∀ u, (u < n)%N →
    kw !! u = Some (min r (N.to_nat u)) ∧ ks !! u = Some (min 1 (N.to_nat u)).
Proof.
  intros Eg HS Hvs Hr Hr2. destruct (C103_path_reach n L g r Eg HS Hvs Hr Hr2) as (mw & ms & Hmw & Hms & Hspec). destruct HS as (HL & HV & _).
  destruct (C15_path n) as (g' & Eg' & _ & Vg & _). rewrite Eg in Eg'. injection Eg' as <-.
  destruct (C42_wreach_sizes L r HL Hr2) as (mw' & kw & Hmw' & Hkw & Hsw). rewrite Hmw in Hmw'. injection Hmw' as <-.
  destruct (C41_sreach_sets_sizes L r HL Hr) as (ms' & ks & Hms' & Hks & Hss & _); [lia|]. rewrite Hms in Hms'. injection Hms' as <-.
  exists kw, ks. split_and!; [done|done|]. intros u Hu. destruct (Hspec u Hu) as ((w & Ew & Hw) & (s & Es & Hs)). split.
  - rewrite Hsw, Ew. cbn. f_equal. rewrite (map_size_list w ((λ i, (u - N.of_nat i)%N) <$> seq 1 (min r (N.to_nat u)))); [by rewrite fmap_length, seq_length| |].
    + apply NoDup_fmap_2_strong; [|apply NoDup_seq]. intros i j [? ?]%elem_of_seq [? ?]%elem_of_seq ?. lia.
    + intros v. rewrite elem_of_list_fmap. split.
      * intros (i & -> & [H1 H2]%elem_of_seq). exists i. apply Hw. lia.
      * intros [k [H1 H2]%Hw]. exists k. split; [lia|]. apply elem_of_seq. lia.
  - destruct (Hss u) as (s' & Es' & Hk & _); [by apply HV, Vg|]. rewrite Es in Es'. injection Es' as <-. rewrite Hk. f_equal.
    rewrite (map_size_list s ((λ i, (u - N.of_nat i)%N) <$> seq 1 (min 1 (N.to_nat u)))); [by rewrite fmap_length, seq_length| |].
    + apply NoDup_fmap_2_strong; [|apply NoDup_seq]. intros i j [? ?]%elem_of_seq [? ?]%elem_of_seq ?. lia.
    + intros v. rewrite elem_of_list_fmap. split.
      * intros (i & -> & [H1 H2]%elem_of_seq). exists 1. apply Hs. lia.
      * intros [k [H1 H2]%Hs]. exists 1. split; [lia|]. apply elem_of_seq. lia.
Qed.
Theorem C103_clique_sizes (n : N) (L : lgraph) g (r : nat) : eg_clique n = Ok g → shows L g → 1 ≤ r → (N.of_nat r + 1 < u32_mod)%N →
  ∃ kw ks, wreach_sizes L r = Ok kw ∧ sreach_sizes L r = Ok ks ∧ ∀ i u, vertices L !! i = Some u → kw !! u = Some i ∧ ks !! u = Some i.
Proof.
  intros Eg HS Hr Hr2. destruct (C103_clique_reach n L g r Eg HS Hr Hr2) as (mw & ms & Hmw & Hms & Hspec). destruct HS as (HL & HV & _).
  destruct (C15_clique n) as (g' & Eg' & _ & Vg & _). rewrite Eg in Eg'. injection Eg' as <-.
  destruct (C42_wreach_sizes L r HL Hr2) as (mw' & kw & Hmw' & Hkw & Hsw). rewrite Hmw in Hmw'. injection Hmw' as <-.
  destruct (C41_sreach_sets_sizes L r HL Hr) as (ms' & ks & Hms' & Hks & Hss & _); [lia|]. rewrite Hms in Hms'. injection Hms' as <-.
  exists kw, ks. split_and!; [done|done|]. intros i u Hi. pose proof (vs_nodup _ HL) as Hnd.
  assert (contains L u = true) as Hcu by (apply (vs_vtx _ HL); by eapply elem_of_list_lookup_2).
  destruct (Hspec u) as (w & Ew & Es & Hw); [by apply Vg, HV|]. destruct (Hss u Hcu) as (s & Es' & Hk & _). rewrite Es in Es'. injection Es' as <-.
  assert (size w = i) as Hsz.
  { assert (i < length (vertices L)) by (by eapply lookup_lt_Some). rewrite (map_size_list w (take i (vertices L))).
    - rewrite take_length. lia.
    - rewrite <- (take_drop i (vertices L)) in Hnd. by apply NoDup_app in Hnd as (? & _ & _).
    - intros v. split.
      + intros [j Hj]%elem_of_list_lookup. apply lookup_take_Some in Hj as [Hj ?]. exists 1. apply Hw. split; [|done]. exists j, i. done.
      + intros [k [(a & b & Ha & Hb & Hab) _]%Hw]. pose proof (NoDup_lookup _ _ _ _ Hnd Hi Hb) as <-. apply elem_of_list_lookup. exists a. by rewrite lookup_take. }
  by rewrite Hsw, Ew, Hk, <- Hsz.
Qed.
End with_iter.

(** The hypothesis [shows] is met: every order of the vertices gives such a linear graph. *)
Theorem C103_shown `{HI : HashIter} (g : editgraph) (order : list N) : eg_reachable g → (∀ u, eg_adjacent g u u ≠ true) → NoDup order →
  (∀ u, u ∈ order ↔ eg_contains g u = true) → ∃ o, og_with_ordering (eg_graph g) order = Ok o ∧ shows (og_lgraph o) g ∧ vertices (og_lgraph o) = order.
Proof.
  intros Hr Hl Hnd Ho. pose proof (C10_reachable_wf g Hr) as Hwf.
  destruct (C34_with_ordering (eg_graph g) order Hwf) as (o & Hok & HL & Hvs & _ & _ & Hc & Ha & _); [intros u; apply Hl|done| |].
  - intros u v Huv. apply Ho. by apply (wf_adj_vtx _ Hwf u v).
  - exists o. split_and!; [done| |exact Hvs]. split_and!; [done| |].
    + intros u. etrans; [apply Hc|apply Ho].
    + intros u v. change (adjacent (og_graph o) u v = true ↔ adjacent (eg_graph g) u v = true). by rewrite Ha.
Qed.

Local Existing Instance std_iter.

(** Concrete cases: the counts in scrambled orders, and reachability on a path and a clique. *)
Definition ex_count (g : res editgraph) (order : list N) : res nat := g ← g; o ← og_with_ordering (eg_graph g) order; count_max_cliques (og_lgraph o).
Example ex_C103 : ex_count (eg_path 5) [3; 0; 4; 1; 2]%N = Ok 4 ∧ ex_count (eg_cycle 3) [2; 0; 1]%N = Ok 1 ∧ ex_count (eg_cycle 5) [3; 0; 4; 1; 2]%N = Ok 5 ∧
  ex_count (eg_matching 3) [5; 1; 4; 0; 2; 3]%N = Ok 3 ∧ ex_count (eg_grid 2 3) [5; 1; 4; 0; 2; 3]%N = Ok 7 ∧ ex_count (eg_clique 4) [3; 1; 0; 2]%N = Ok 1 ∧
  ex_count (Ok (eg_independent 4)) [3; 1; 0; 2]%N = Ok 4 ∧ ex_count (eg_complete_kpartite [1; 2; 3]%N) [5; 1; 4; 0; 2; 3]%N = Ok 6 ∧
  ex_count (eg_biclique 2 3) [4; 1; 0; 2; 3]%N = Ok 6.
Proof. vm_compute. split_and!; reflexivity. Qed.
Example ex_C103_triangle_free : ∃ g o, eg_cycle 5 = Ok g ∧ og_with_ordering (eg_graph g) [3; 0; 4; 1; 2]%N = Ok o ∧ shows (og_lgraph o) g.
Proof.
  destruct (C15_cycle 5) as (g & Eg & Rg & Vg & Ag). destruct (C103_shown g [3; 0; 4; 1; 2]%N Rg) as (o & Ho & Hs & _).
  - intros u Hu%(cycle_adj g 5 ltac:(lia) Ag). lia.
  - apply (bool_decide_unpack _). vm_compute. exact I.
  - intros u. rewrite Vg, !elem_of_cons, elem_of_nil. lia.
  - exists g, o. split; [exact Eg|]. split; [exact Ho|exact Hs].
Qed.
Example ex_C103_reach : (g ← eg_path 6; o ← og_with_ordering (eg_graph g) (range 0 6); w ← wreach_sets (og_lgraph o) 2; s ← sreach_sets (og_lgraph o) 2;
   k ← eg_clique 4; o' ← og_with_ordering (eg_graph k) [2; 0; 3; 1]%N; w' ← wreach_sets (og_lgraph o') 2;
   Ok (map_to_list <$> w !! 4%N, map_to_list <$> s !! 4%N, map_to_list <$> w' !! 3%N))
  = Ok (Some [(3%N, 1); (2%N, 2)], Some [(3%N, 1)], Some [(0%N, 1); (2%N, 1)]).
Proof. vm_compute. reflexivity. Qed.
Example ex_C103_sizes : (g ← eg_path 6; o ← og_with_ordering (eg_graph g) (range 0 6); w ← wreach_sizes (og_lgraph o) 3; s ← sreach_sizes (og_lgraph o) 3;
   k ← eg_clique 4; o' ← og_with_ordering (eg_graph k) [2; 0; 3; 1]%N; w' ← wreach_sizes (og_lgraph o') 2;
   Ok ((λ v, w !! v) <$> range 0 6, (λ v, s !! v) <$> range 0 6, (λ v, w' !! v) <$> range 0 4))
  = Ok (Some <$> [0; 1; 2; 3; 3; 3], Some <$> [0; 1; 1; 1; 1; 1], Some <$> [1; 3; 0; 2]).
Proof. vm_compute. reflexivity. Qed.

Print Assumptions C103_multipartite.
Print Assumptions C103_triangle_free.
Print Assumptions C103_path.
Print Assumptions C103_cycle.
Print Assumptions C103_matching.
Print Assumptions C103_grid.
Print Assumptions C103_clique.
Print Assumptions C103_independent.
Print Assumptions C103_complete_kpartite.
Print Assumptions C103_biclique.
Print Assumptions C103_path_reach.
Print Assumptions C103_clique_reach.
Print Assumptions C103_path_sizes.
Print Assumptions C103_clique_sizes.
Print Assumptions C103_shown.
