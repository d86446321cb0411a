(** Property theorem C107: relations between the answers of different algorithms (algorithms/graph.rs:41-223, algorithms/lineargraph.rs)
    on the same graph. *)
From Verif Require Import Base Spec M_Graph M_Iterators M_EditGraph M_Algorithms M_OrdGraph M_Linear S_Graph S_Linear S_Cliques
  P_EditGraph P_Degeneracy P_OrdGraph P_OrdGraph2 P_DegenGraph P_Compose P_Counts P_Forest T_EditGraph T_Algorithms T_OrdGraph T_Linear T_Counts Examples.

Section relations.
Context {Hi : HashIter}.

Lemma sum_le_len (f : N → nat) l : sum_list_with f l = 0 → ∀ v, v ∈ l → f v = 0.
Proof. induction l as [|x l IH]; cbn; intros H0 v Hv; [set_solver|]. apply elem_of_cons in Hv as [->|Hv]; [lia|]. apply IH; [lia|done]. Qed.

(** ** Vertices, edges, components, degeneracy, bipartiteness: forests are the graphs of degeneracy at most 1 *)
Theorem C107_forest (G : graph) lo up order core cs : graph_wf G → loopless G → degeneracy G = Ok (lo, up, order, core) → components G = Ok cs →
  num_vertices G ≤ num_edges G + length cs ∧ (num_vertices G = num_edges G + length cs ↔ up ≤ 1) ∧
  (up ≤ 1 → ∃ L R, is_bipartite G = Ok (Bipartition L R)).
Proof.
  intros Hwf Hl Hd Ecs.
  destruct (search_order G Hwf) as (l & Hnd & Hin & Hs). destruct (left_count G l Hwf Hl Hnd Hin) as (ld & Hld & Hsum).
  assert (∀ l, NoDup l → (∀ v, v ∈ l ↔ vtx G v) → length l = num_vertices G) as Hlen.
  { intros k Hk1 Hk2. rewrite (wf_num_vertices _ Hwf). apply same_length; [done|apply Hwf|]. intros x. by rewrite Hk2, (wf_vertices _ Hwf). }
  pose proof (searched_roots G l ld cs Hwf Hnd Hin Hs Hld Ecs) as Hroots. pose proof (sum_roots ld l) as Hc. rewrite (Hlen l Hnd Hin), Hsum in Hc.
  destruct (C23_degeneracy_order G Hwf Hl) as (lo' & up' & o' & c' & D' & Hndo & Ho & Hcore). rewrite Hd in D'. injection D' as <- <- <- <-.
  destruct (left_count G order Hwf Hl Hndo Ho) as (le & Hle & Hsume).
  assert (up ≤ 1 → ∀ v, vtx G v → le v ≤ 1) as Hle1.
  { intros Hup v Hv. destruct (Hle v Hv) as (ls & Hnl & <- & Hls). destruct (proj2 (Hcore v) Hv) as [c Hcv].
    destruct (C24_left_degree_partial G lo up order core v c ls Hwf Hl Hd Hcv) as (H1 & H2 & _); [split; [done|intros u Hu; by apply Hls]|]. lia. }
  split_and!; [lia| |].
  - split.
    + intros Heq. assert (sum_list_with (λ v, pred (ld v)) l = 0) as H0 by lia.
      destruct (decide (up = 0)) as [->|Hup0]; [lia|]. assert (∃ v, vtx G v) as Hex.
      { destruct (degeneracy_inv G Hwf Hl) as (s & Hs' & HIv & Hin'). rewrite Hd in Hs'. injection Hs' as _ Hup _ _.
        destruct (gi_num_last _ _ HIv) as [[_ Hz]|[v Hv]]; [congruence|]. exists v. apply Hin'. apply (gi_core _ _ HIv). by eexists. }
      destruct (C24_lower_bound G lo up order core Hwf Hl Hd Hex) as (_ & H & HH & Hm & _).
      apply (order_bound G l 1 Hwf Hl Hnd Hin) with H; [|done|done]. intros v ls Hv Hnl Hls. destruct (Hld v Hv) as (lv & Hnv & Elv & Hlv).
      pose proof (sum_le_len _ l H0 v (proj2 (Hin v) Hv)) as Hp. transitivity (length lv); [|cbn in Hp; lia]. apply submseteq_length, NoDup_submseteq; [done|].
      intros u Hu. by apply Hlv, Hls.
    + intros Hup. pose proof (sum_roots le order) as Hc2. rewrite (Hlen order Hndo Ho), Hsume in Hc2.
      pose proof (order_roots G order le cs Hwf Hndo Ho Hle Ecs). rewrite (sum_zero (λ v, pred (le v))) in Hc2; [lia|].
      intros v Hv%Ho. specialize (Hle1 Hup v Hv). lia.
  - intros Hup. apply (C25_iff_two_colourable G Hwf). destruct (forest_colouring G order Hwf Hl Hndo) as [f Hf].
    + intros v u u' Hv%Ho Ha Ha' Hb Hb'. specialize (Hle1 Hup v Hv). destruct (Hle v Hv) as (ls & _ & Elen & Hls). rewrite <- Elen in Hle1.
      assert (u ∈ ls) as Hu by (apply Hls; split; [by apply (wf_adj_sym _ Hwf)|done]). assert (u' ∈ ls) as Hu' by (apply Hls; split; [by apply (wf_adj_sym _ Hwf)|done]).
      destruct ls as [|a [|b ls]]; [set_solver|apply elem_of_list_singleton in Hu as ->, Hu' as ->; done|cbn in Hle1; lia].
    + exists f. intros u v Huv. apply Hf; [| |done]; apply Ho.
      * by eapply (wf_adj_vtx _ Hwf).
      * apply (wf_adj_sym _ Hwf) in Huv. by eapply (wf_adj_vtx _ Hwf).
Qed.
(** So an odd cycle shows in the other answers as well. *)
Theorem C107_odd_cycle (G : graph) lo up order core cs c : graph_wf G → loopless G → degeneracy G = Ok (lo, up, order, core) → components G = Ok cs →
  is_bipartite G = Ok (OddCycle c) → 2 ≤ up ∧ num_vertices G < num_edges G + length cs.
Proof.
  intros Hwf Hl Hd Ecs Hb. destruct (C107_forest G lo up order core cs Hwf Hl Hd Ecs) as (H1 & H2 & H3).
  assert (2 ≤ up) as Hup.
  { destruct (decide (up ≤ 1)) as [Hle|]; [|lia]. destruct (H3 Hle) as (L & R & E). congruence. }
  split; [done|]. assert (num_vertices G ≠ num_edges G + length cs) by (rewrite H2; lia). lia.
Qed.

(** ** The sides of a bipartition bound the number of edges *)
Theorem C107_bipartite_edges (G : graph) L R : graph_wf G → is_bipartite G = Ok (Bipartition L R) →
  size L + size R = num_vertices G ∧ num_edges G ≤ size L * size R ∧ 4 * num_edges G ≤ num_vertices G * num_vertices G.
Proof.
  intros Hwf Hb. destruct (C25_bipartition G L R Hwf Hb) as (Hdj & HV & HE).
  assert (size L + size R = num_vertices G) as Hn.
  { destruct (vertex_set G Hwf) as (V & HVs & ->). rewrite <- size_union by done. f_equal. apply set_eq. intros x. by rewrite HV, HVs. }
  assert (num_edges G ≤ size L * size R) as Hm.
  { destruct (wf_num_edges _ Hwf) as (E & HEs & ->). change (size E) with (length (elements E)).
    set (f := λ e : N * N, if decide (e.1 ∈ L) then e else (e.2, e.1)).
    assert (length (tag (elements L) (λ _, elements R)) = size L * size R) as <- by (by rewrite tag_length, sum_const).
    apply (length_inj f); [apply NoDup_elements| |].
    - intros [a b] [a' b'] [Hab Hadj]%elem_of_elements%HEs [Hab' Hadj']%elem_of_elements%HEs. unfold f. cbn.
      repeat case_decide; intros [= -> ->]; [done| | |done].
      + f_equal; lia.
      + f_equal; lia.
    - intros [a b] [_ Hadj]%elem_of_elements%HEs. unfold f. cbn. destruct (HE a b Hadj) as [[Ha Hb']|[Ha Hb']].
      + rewrite decide_True by done. apply elem_of_tag. by rewrite !elem_of_elements.
      + rewrite decide_False by (intros Hx; exact (Hdj a Hx Ha)). apply elem_of_tag. by rewrite !elem_of_elements. }
  split_and!; [done|done|]. rewrite <- Hn. etrans; [apply Nat.mul_le_mono_l, Hm|]. generalize (size L) (size R). intros a b. clear.
  destruct (Nat.le_ge_cases a b) as [H|H]; apply Nat.le_exists_sub in H as (k & -> & _); nia.
Qed.

(** ** Cliques bound degeneracy, left degrees and colours from below *)
Theorem C107_clique_degeneracy (G : graph) lo up order core (X : gset N) : graph_wf G → loopless G → degeneracy G = Ok (lo, up, order, core) →
  (∀ x, x ∈ X → contains G x = true) → (∀ x y, x ∈ X → y ∈ X → x ≠ y → adjacent G x y = true) → size X ≤ 130 → size X ≤ up + 1.
Proof.
  intros Hwf Hl Hd HX HC Hsz. destruct (decide (X = ∅)) as [->|Hne]; [rewrite size_empty; lia|].
  assert (size X - 1 ≤ up); [|lia]. apply (up_ge G lo up order core X (size X - 1) Hwf Hl Hd Hne); [|lia].
  intros u Hu. split; [by apply HX|]. exists (elements (X ∖ {[u]})). split_and!; [apply NoDup_elements| |].
  - change (size X - 1 ≤ size (X ∖ {[u]})). rewrite size_difference by set_solver. rewrite size_singleton. lia.
  - intros w [Hw Hwu]%elem_of_elements%elem_of_difference. split; [done|]. apply HC; [done|done|]. intros ->. apply Hwu. by apply elem_of_singleton.
Qed.
Theorem C107_clique_linear (L : lgraph) d (X : gset N) : lgraph_wf L → max_left_degree L = Ok d →
  (∀ x, x ∈ X → contains L x = true) → (∀ x y, x ∈ X → y ∈ X → x ≠ y → adjacent L x y = true) →
  size X ≤ d + 1 ∧ size X ≤ max_right_degree L + 1 ∧
  ∀ c k, colour_greedy L = Ok c → (∀ x, x ∈ X → is_Some (c !! x)) → (∀ v a, c !! v = Some a → (a < k)%N) → size X ≤ N.to_nat k.
Proof.
  intros HL Hd HX HC. pose proof (lwf_graph L HL) as Hwf. pose proof (wf_vertices_nodup _ Hwf) as Hnd.
  assert (∀ (R : N → N → Prop), (∀ x y, before (vertices L) x y → R x y ∨ R y x) → (∀ x, ¬ R x x) → (∀ x y z, R x y → R y z → R x z) →
    X ≠ ∅ → ∃ v, v ∈ X ∧ ∀ u, u ∈ X → u ≠ v → R u v) as Hmax.
  { intros R Htot Hirr Htr. revert HX HC. clear Hd. induction X as [|x X Hx IH] using set_ind_L; intros HX HC Hne; [done|].
    destruct (decide (X = ∅)) as [->|HX0]; [exists x; split; [set_solver|]; intros u Hu Hux; set_solver|].
    destruct IH as (v & Hv & Hlast); [intros; apply HX; set_solver|intros; apply HC; set_solver|done|].
    assert (x ≠ v) as Hxv by (intros ->; done).
    assert (R x v ∨ R v x) as [Hb|Hb].
    { destruct (ord_total (vertices L) x v) as [Hb|Hb]; [apply (wf_vertices _ Hwf), HX; set_solver|apply (wf_vertices _ Hwf), HX; set_solver|done|by apply Htot|].
      destruct (Htot _ _ Hb); tauto. }
    - exists v. split; [set_solver|]. intros u [->%elem_of_singleton|Hu]%elem_of_union Hne'; [done|by apply Hlast].
    - exists x. split; [set_solver|]. intros u [->%elem_of_singleton|Hu]%elem_of_union Hne'; [done|].
      destruct (decide (u = v)) as [->|Huv]; [done|]. apply (Htr u v x); [by apply Hlast|done]. }
  destruct (decide (X = ∅)) as [->|Hne].
  { rewrite size_empty. split_and!; [lia|lia|]. intros. lia. }
  assert (∀ v (P : N → Prop) l, v ∈ X → (∀ u, u ∈ X → u ≠ v → u ∈ l) → size X ≤ length l + 1) as Hcount.
  { intros v _ l Hv Hl. assert (size (X ∖ {[v]}) ≤ length l) as Hle.
    { change (size (X ∖ {[v]})) with (length (elements (X ∖ {[v]}))). apply submseteq_length, NoDup_submseteq; [apply NoDup_elements|].
      intros u [Hu Huv]%elem_of_elements%elem_of_difference. apply Hl; [done|]. intros ->. apply Huv. by apply elem_of_singleton. }
    rewrite size_difference, size_singleton in Hle by set_solver. lia. }
  destruct (C34_degree_maps L HL) as (m & d' & _ & Ed & Hdm & _ & _ & _ & Hr & _). rewrite Hd in Ed. injection Ed as <-. split_and!.
  - destruct (Hmax (before (vertices L))) as (v & Hv & Hlast); [tauto|intros x; by apply ord_irrefl'|intros x y z; by apply ord_trans|done|].
    destruct (Hdm v (HX v Hv)) as (l & El & _ & Hle). destruct (lwf_left L HL v (HX v Hv)) as (l' & El' & Hl & _). rewrite El in El'. injection El' as <-.
    transitivity (length l + 1); [|lia]. apply (Hcount v (λ _, True) l Hv). intros u Hu Hne'. apply Hl. split; [by apply HC|by apply Hlast].
  - destruct (Hmax (λ x y, before (vertices L) y x)) as (v & Hv & Hlast); [tauto|intros x; by apply ord_irrefl'|intros x y z ? ?; by eapply ord_trans|done|].
    destruct (lwf_right L HL v (HX v Hv)) as (l & _ & El & Hl). specialize (Hr v (HX v Hv)). rewrite El in Hr.
    transitivity (length l + 1); [|lia]. apply (Hcount v (λ _, True) l Hv). intros u Hu Hne'. apply Hl. split; [by apply HC|by apply Hlast].
  - intros c k Ec Hall Hk. destruct (C45_colour_greedy_partial L c HL Ec) as (Hp & _).
    change (size X) with (length (elements X)). rewrite <- (seq_length (N.to_nat k) 0). apply (length_inj (λ x, N.to_nat (default 0%N (c !! x)))); [apply NoDup_elements| |].
    + intros x y Hx%elem_of_elements Hy%elem_of_elements E. destruct (decide (x = y)) as [?|Hne']; [done|]. exfalso.
      destruct (Hall x Hx) as [a Ha]. destruct (Hall y Hy) as [b Hb]. rewrite Ha, Hb in E. cbn in E. apply (Hp x y a b); [by apply HC|done|done|lia].
    + intros x Hx%elem_of_elements. destruct (Hall x Hx) as [a Ha]. rewrite Ha. cbn. apply elem_of_seq. specialize (Hk x a Ha). lia.
Qed.
End relations.

(** ** Cases meeting the hypotheses: a triangle with a pendant edge, a forest of two trees, and the triangle in an order *)
Local Existing Instance std_iter.
Definition C107_g : editgraph := ex_edit [(0, 1); (1, 2); (2, 0); (2, 3)]%N.
Definition C107_f : editgraph := ex_edit [(0, 1); (1, 2); (1, 3); (7, 8)]%N.
Definition C107_answers (G : graph) : option (nat * nat * nat * nat * option (nat * nat)) :=
  match degeneracy G, components G, is_bipartite G with
  | Ok (_, up, _, _), Ok cs, Ok w => Some (num_vertices G, num_edges G, length cs, up, match w with Bipartition L R => Some (size L, size R) | OddCycle _ => None end)
  | _, _, _ => None end.
Lemma ex_C107_wf : graph_wf (eg_graph C107_g) ∧ graph_wf (eg_graph C107_f) ∧ loopless (eg_graph C107_g) ∧ loopless (eg_graph C107_f).
Proof. split_and!; try apply ex_edit_spec; intros u Hu; apply ex_edit_spec in Hu; set_solver. Qed.
Example ex_C107 : C107_answers (eg_graph C107_g) = Some (4, 4, 1, 2, None) ∧
  C107_answers (eg_graph C107_f) = Some (6, 4, 2, 1, Some (4, 2)).
Proof. vm_compute; split_and!; reflexivity. Qed.
Example ex_C107_linear : lgraph_wf (ex_lin [(0, 1); (1, 2); (2, 0); (2, 3)]%N [3; 2; 1; 0]%N) ∧
  max_left_degree (ex_lin [(0, 1); (1, 2); (2, 0); (2, 3)]%N [3; 2; 1; 0]%N) = Ok 2 ∧
  max_right_degree (ex_lin [(0, 1); (1, 2); (2, 0); (2, 3)]%N [3; 2; 1; 0]%N) = 2 ∧
  (∀ x y, x ∈ [0; 1; 2]%N → y ∈ [0; 1; 2]%N → x ≠ y → adjacent (ex_lin [(0, 1); (1, 2); (2, 0); (2, 3)]%N [3; 2; 1; 0]%N) x y = true).
Proof.
  destruct (ex_lin_spec [(0, 1); (1, 2); (2, 0); (2, 3)]%N [3; 2; 1; 0]%N) as (_ & Hwf & _); [by vm_compute|]. split; [exact Hwf|].
  split; [vm_compute; reflexivity|]. split; [vm_compute; reflexivity|].
  intros x y Hx Hy. repeat (apply elem_of_cons in Hx as [->|Hx]); [..|by apply elem_of_nil in Hx];
    (repeat (apply elem_of_cons in Hy as [->|Hy]); [..|by apply elem_of_nil in Hy]); intros Hne; try done; vm_compute; reflexivity.
Qed.

Print Assumptions C107_forest.
Print Assumptions C107_odd_cycle.
Print Assumptions C107_bipartite_edges.
Print Assumptions C107_clique_degeneracy.
Print Assumptions C107_clique_linear.
