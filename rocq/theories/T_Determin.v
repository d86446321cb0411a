(** Property theorem C82: the algorithms of LinearGraph depend only on the ordered graph, that is
    on the order and on which pairs are adjacent.  Neither the data structure holding the graph
    nor the iteration order of the hash tables, which changes from run to run, has any influence.
    [H1] and [H2] are two arbitrary hash orders. *)
From Verif Require Import Base Spec M_Graph M_Iterators M_EditGraph M_Algorithms M_OrdGraph M_DegenGraph M_Linear M_Domset
  S_Graph S_Linear S_Reach P_EditGraph P_EditGraph2 P_OrdGraph P_Linear P_Domset P_Determin T_EditGraph T_OrdGraph T_DegenGraph Examples.

(** Two linear graphs present the same ordered graph. *)
Definition same_ordered (L1 L2 : lgraph) : Prop :=
  vertices L1 = vertices L2 ∧ ∀ u v, adjacent L1 u v = adjacent L2 u v.

(** ** C82 *)
Theorem C82_same_results (H1 H2 : HashIter) (L1 L2 : lgraph) : lgraph_wf L1 → lgraph_wf L2 → same_ordered L1 L2 →
  num_vertices L1 = num_vertices L2 ∧ num_edges L1 = num_edges L2 ∧
  (∀ u, contains L1 u = true → degree L1 u = degree L2 u ∧ left_neighbours L1 u = left_neighbours L2 u ∧
     right_degree L1 u = right_degree L2 u) ∧
  (∀ u, left_degree L1 u = left_degree L2 u) ∧
  (∀ u r, @right_bfs H1 L1 u r = @right_bfs H2 L2 u r) ∧
  (∀ r, @wreach_sets H1 L1 r = @wreach_sets H2 L2 r) ∧
  (∀ r, @wreach_sizes H1 L1 r = @wreach_sizes H2 L2 r) ∧
  (∀ u r, @sreach_set H1 L1 u r = @sreach_set H2 L2 u r) ∧
  (∀ r, @sreach_sets H1 L1 r = @sreach_sets H2 L2 r) ∧
  (∀ r, @sreach_sizes H1 L1 r = @sreach_sizes H2 L2 r) ∧
  count_max_cliques L1 = count_max_cliques L2 ∧
  colour_greedy L1 = colour_greedy L2 ∧
  (∀ r T, @domset_with_target H1 L1 r false T = @domset_with_target H2 L2 r false T) ∧
  (∀ r, @domset H1 L1 r false = @domset H2 L2 r false).
Proof.
  intros HL1 HL2 [Hvs Ha]. assert (∀ u v, adj L1 u v ↔ adj L2 u v) as Hadj by (intros u v; unfold adj; by rewrite Ha).
  split_and!.
  - by apply two_num.
  - by apply two_num_edges.
  - intros u Hu. split_and!; [by apply two_degree|by apply two_left|by apply two_right].
  - intros u. by apply two_left_degree.
  - intros u r. by apply two_right_bfs.
  - intros r. by apply two_wreach_sets.
  - intros r. by apply two_wreach_sizes.
  - intros u r. by apply two_sreach_set.
  - intros r. by apply two_sreach_sets.
  - intros r. by apply two_sreach_sizes.
  - by apply two_count.
  - by apply two_greedy.
  - intros r T. by apply two_domset.
  - intros r. unfold domset. rewrite Hvs. by apply two_domset.
Qed.

(** Asking for a witness does not change the dominating set and its distances. *)
Theorem C82_witness_flag (H1 : HashIter) (L : lgraph) (r : nat) (T : list N) D dd o :
  domset_with_target L r true T = Ok (D, dd, o) → domset_with_target L r false T = Ok (D, dd, None).
Proof.
  unfold domset_with_target. destruct (_ || _); [by intros [= <- <- _]|].
  destruct (assert_res _); cbn [mbind res_bind]; [|done..].
  destruct (ds_order L); cbn [mbind res_bind]; [|done..].
  destruct (wreach_sets L r) as [W| |]; cbn [mbind res_bind]; [|done..].
  destruct (ds_loop W _ r _ _) as [st| |]; cbn [mbind res_bind negb]; [|done..].
  destruct (wreach_sets L (2 * r)) as [W2| |]; cbn [mbind res_bind]; [|done..].
  destruct (ds_conflict true W2 _ r) as [h| |]; cbn [mbind res_bind]; [|done..].
  destruct (ds_colours h) as [c| |]; cbn [mbind res_bind]; [|done..].
  by intros [= <- <- <-].
Qed.

(** Two runs that both return agree on the dominating set and on the distances; only the witness
    may differ. *)
Theorem C82_with_witness (H1 H2 : HashIter) (L1 L2 : lgraph) (r : nat) (T : list N) (w1 w2 : bool) D1 dd1 o1 D2 dd2 o2 :
  lgraph_wf L1 → lgraph_wf L2 → same_ordered L1 L2 →
  @domset_with_target H1 L1 r w1 T = Ok (D1, dd1, o1) → @domset_with_target H2 L2 r w2 T = Ok (D2, dd2, o2) →
  D1 = D2 ∧ dd1 = dd2.
Proof.
  intros HL1 HL2 Hs E1 E2. destruct (C82_same_results H1 H2 L1 L2 HL1 HL2 Hs) as (_ & _ & _ & _ & _ & _ & _ & _ & _ & _ & _ & _ & Hd & _).
  assert (@domset_with_target H1 L1 r false T = Ok (D1, dd1, None)) as F1.
  { destruct w1; [by eapply C82_witness_flag|]. rewrite E1. f_equal. f_equal. revert E1. unfold domset_with_target.
    destruct (_ || _); [by intros [= _ _ <-]|]. repeat (match goal with |- context [mbind _ ?x] => destruct x; cbn [mbind res_bind negb]; try done end).
    all: try by intros [= _ _ <-]. }
  assert (@domset_with_target H2 L2 r false T = Ok (D2, dd2, None)) as F2.
  { destruct w2; [by eapply C82_witness_flag|]. rewrite E2. f_equal. f_equal. revert E2. unfold domset_with_target.
    destruct (_ || _); [by intros [= _ _ <-]|]. repeat (match goal with |- context [mbind _ ?x] => destruct x; cbn [mbind res_bind negb]; try done end).
    all: try by intros [= _ _ <-]. }
  rewrite Hd, F2 in F1. injection F1. auto.
Qed.

(** OrdGraph and DegenGraph built from the same EditGraph and order, in two runs, present the same
    ordered graph; with C82_same_results all results agree. *)
Theorem C82_ord_degen (H1 H2 : HashIter) (g : editgraph) (order : list N) : @eg_reachable H1 g →
  (∀ u, eg_adjacent g u u = false) → NoDup order → (∀ u, u ∈ order ↔ eg_contains g u = true) →
  (N.of_nat (3 * length order + eg_num_edges g) <= u32_mod)%N →
  ∃ g1 g2, og_with_ordering (@eg_graph H1 g) order = Ok g1 ∧ dg_with_ordering (@eg_graph H2 g) order = Ok g2 ∧
    lgraph_wf (@og_lgraph H1 g1) ∧ lgraph_wf (@dg_lgraph H2 g2) ∧ same_ordered (@og_lgraph H1 g1) (@dg_lgraph H2 g2).
Proof.
  intros Hg Hl Hnd Ho Hsz. pose proof (proj1 (eg_reachable_wf _) Hg) as Hgw.
  pose proof (@eg_graph_wf H1 g Hgw) as Hw1. pose proof (@eg_graph_wf H2 g Hgw) as Hw2.
  destruct (@C34_with_ordering H1 (@eg_graph H1 g) order Hw1) as (g1 & Hg1 & Hl1 & Hv1 & _ & _ & _ & Ha1 & _).
  { intros u Hu. change (eg_adjacent g u u = true) in Hu. by rewrite Hl in Hu. }
  { done. }
  { intros u v Huv. apply Ho. by eapply (wf_adj_vtx _ Hw1). }
  destruct (@C37_with_ordering H2 (@eg_graph H2 g) order Hw2) as (g2 & Hg2 & Hl2 & _ & Hv2 & _ & _ & _ & _ & _ & Ha2 & _).
  { intros u Hu. change (eg_adjacent g u u = true) in Hu. by rewrite Hl in Hu. }
  { done. }
  { done. }
  { done. }
  exists g1, g2. split_and!; [done..|]. split.
  - change (vertices (@og_graph H1 g1) = vertices (@dg_graph H2 g2)). congruence.
  - intros u v. change (adjacent (@og_graph H1 g1) u v = adjacent (@dg_graph H2 g2) u v). by rewrite Ha1, Ha2.
Qed.

(** ** Example: a path on ten vertices with two chords, in OrdGraph with one hash order and in
    DegenGraph with the reversed one. *)
Definition ex_det_edges : list (N * N) :=
  [(0, 1); (1, 2); (2, 3); (3, 4); (4, 5); (5, 6); (6, 7); (7, 8); (8, 9); (0, 2); (5, 8)]%N.
Definition ex_det_order : list N := [4; 2; 0; 9; 7; 1; 3; 5; 6; 8]%N.
Definition ex_det : editgraph := ex_edit ex_det_edges.
Example ex_C82_hyp : @eg_reachable std_iter ex_det ∧ (∀ u, eg_adjacent ex_det u u = false) ∧ NoDup ex_det_order ∧
  (∀ u, u ∈ ex_det_order ↔ eg_contains ex_det u = true) ∧
  (N.of_nat (3 * length ex_det_order + eg_num_edges ex_det) <= u32_mod)%N.
Proof.
  destruct (ex_edit_spec ex_det_edges) as [Hwf Ha].
  assert (Forall (λ e : N * N, e.1 ≠ e.2) ex_det_edges) as HF by (apply (bool_decide_unpack _); vm_compute; exact I).
  rewrite Forall_forall in HF. split_and!.
  - destruct (@C01_editgraph_refines std_iter (ex_ops_of ex_det_edges)) as (h & Hh & _).
    unfold ex_det, ex_edit. rewrite Hh. by eexists _, _.
  - intros u. apply not_true_is_false. intros Hu. apply (Ha u u) in Hu as [Hu|Hu]; by apply HF in Hu.
  - apply (bool_decide_unpack _). vm_compute. exact I.
  - assert (ex_det_order ≡ₚ vertices (@eg_graph std_iter ex_det)) as Hp by (apply (bool_decide_unpack _); vm_compute; exact I).
    intros u. pose proof (wf_vertices _ Hwf u) as Hu. rewrite Hp. exact Hu.
  - vm_compute. done.
Qed.
Definition ex_view (x : res (gset N * gmap N nat * option (gmap N N))) : option (list N * list (N * nat)) :=
  match x with Ok (D, dd, _) => Some (elements D, map_to_list dd) | _ => None end.
Example ex_C82 :
  match og_with_ordering (@eg_graph std_iter ex_det) ex_det_order, dg_with_ordering (@eg_graph rev_iter ex_det) ex_det_order with
  | Ok g1, Ok g2 =>
      neighbours (@og_graph std_iter g1) 5 = Ok [4; 8; 6]%N ∧ neighbours (@dg_graph rev_iter g2) 5 = Ok [4; 6; 8]%N ∧
      ex_view (@domset_with_target std_iter (@og_lgraph std_iter g1) 1 false ex_det_order) = Some ([1; 3; 8; 6]%N,
        [(0%N, 1); (1%N, 0); (3%N, 0); (7%N, 1); (5%N, 1); (9%N, 1); (2%N, 1); (4%N, 1); (8%N, 0); (6%N, 0)]) ∧
      ex_view (@domset_with_target rev_iter (@dg_lgraph rev_iter g2) 1 false ex_det_order) = Some ([1; 3; 8; 6]%N,
        [(0%N, 1); (1%N, 0); (3%N, 0); (7%N, 1); (5%N, 1); (9%N, 1); (2%N, 1); (4%N, 1); (8%N, 0); (6%N, 0)])
  | _, _ => False
  end.
Proof. vm_compute. done. Qed.

Print Assumptions C82_same_results.
Print Assumptions C82_witness_flag.
Print Assumptions C82_with_witness.
Print Assumptions C82_ord_degen.
