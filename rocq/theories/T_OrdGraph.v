(** Property theorems C34-C36: OrdGraph and the LinearGraph default methods.
    Each group is followed by a concrete case meeting the hypotheses. *)
From Verif Require Import Base Spec M_Graph M_Iterators M_EditGraph M_Algorithms M_OrdGraph S_Graph S_Linear
  P_EditGraph P_EditGraph2 P_Graph P_Iterators P_Degeneracy P_OrdGraph P_OrdGraph2 T_EditGraph T_Algorithms.

Section with_iter.
Context `{HI : HashIter}.

(** ** C34: vertices of [G] missing from the order must be isolated, and the order may contain
    further vertices. *)
Theorem C34_with_ordering (G : graph) (order : list N) : graph_wf G → loopless G → NoDup order →
  (∀ u v, adjacent G u v = true → u ∈ order) →
  ∃ g, og_with_ordering G order = Ok g ∧ lgraph_wf (og_lgraph g) ∧
    vertices (og_graph g) = order ∧
    num_vertices (og_graph g) = length order ∧ num_edges (og_graph g) = num_edges G ∧
    (∀ u, contains (og_graph g) u = true ↔ u ∈ order) ∧
    (∀ u v, adjacent (og_graph g) u v = adjacent G u v) ∧
    (∀ u, u ∈ order → contains G u = true → degree (og_graph g) u = degree G u) ∧
    (∀ u i, index_of (og_lgraph g) u = Ok i ↔ order !! i = Some u) ∧
    (∀ u, u ∈ order → ∃ l r, left_neighbours (og_lgraph g) u = Ok l ∧ og_right_neighbours g u = Ok r ∧
       lists_in_order order (λ v, adjacent G u v = true ∧ before order v u) l ∧
       lists_in_order order (λ v, adjacent G u v = true ∧ before order u v) r ∧
       left_degree (og_lgraph g) u = Ok (length l) ∧ right_degree (og_lgraph g) u = length r ∧
       degree (og_graph g) u = length l + length r).
Proof.
  intros Hwf Hl Hnd Hcov. destruct (with_ordering_spec G order Hwf Hl Hnd Hcov) as (g & Hok & Hex). exists g.
  pose proof (og_lgraph_wf G order g Hwf Hl Hex) as Hlw.
  pose proof (og_verts G order g Hex) as Hvs.
  assert (∀ u v, adjacent (og_graph g) u v = adjacent G u v) as Hadj.
  { intros u v. apply eq_true_iff_eq. apply (og_adj G order g Hwf Hl Hex). }
  split_and!; [done|done|done| |apply Hex|apply (og_vtx G order g Hex)|done| | |].
  - by rewrite (wf_num_vertices _ (og_graph_wf G order g Hwf Hl Hex)), Hvs.
  - intros u Hu HGu.
    destruct (wf_neighbours _ Hwf u HGu) as (l0 & _ & Hn0 & H0 & ->).
    destruct (wf_neighbours _ (og_graph_wf G order g Hwf Hl Hex) u) as (l1 & _ & Hn1 & H1 & ->);
      [by apply (og_vtx G order g Hex)|].
    rewrite Hadj. f_equal. apply Permutation_length, NoDup_Permutation; [done|done|].
    intros x. rewrite H0, H1. unfold adj. by rewrite Hadj.
  - intros u i. cbn. rewrite unwrap_ok. apply (oe_pos G order g Hex).
  - intros u Hu. destruct (og_left_spec G order g Hex u Hu) as (l & Hll & Hlo).
    destruct (og_right_spec G order g Hex u Hu) as (r & Hr & Hro). exists l, r.
    assert (vtx (og_lgraph g) u) as Hvu by (by apply (og_vtx G order g Hex)).
    destruct (og_node_spec G order g Hex u Hu) as (n & E1 & E2 & E3 & HL & HR).
    assert (length l = size (on_left n) ∧ length r = size (on_right n)) as [Hsl Hsr].
    { split.
      - assert (l ≡ₚ elements (on_left n)) as ->; [|done]. apply NoDup_Permutation;
          [by eapply lists_in_order_NoDup|apply NoDup_elements|]. intros x. rewrite (proj1 Hlo), elem_of_elements, HL. done.
      - assert (r ≡ₚ elements (on_right n)) as ->; [|done]. apply NoDup_Permutation;
          [by eapply lists_in_order_NoDup|apply NoDup_elements|]. intros x. rewrite (proj1 Hro), elem_of_elements, HR. done. }
    split_and!; [done|done|done|done| | |].
    + destruct (left_degree_spec _ u Hlw Hvu) as (l' & Hl' & ->). cbn in Hl'. congruence.
    + cbn. by rewrite E3.
    + cbn. by rewrite E3, Hsl, Hsr.
Qed.

(** An order with a repeated entry or lacking an endpoint of an edge panics. *)
Theorem C34_bad_order_panics (G : graph) (order : list N) : graph_wf G →
  ¬ NoDup order ∨ (∃ u v, adjacent G u v = true ∧ u ∉ order) → og_with_ordering G order = Panic.
Proof. apply with_ordering_panic. Qed.

Theorem C34_by_degeneracy (G : graph) : graph_wf G → loopless G →
  ∃ g lo up order core, degeneracy G = Ok (lo, up, order, core) ∧
    og_by_degeneracy G = Ok g ∧ lgraph_wf (og_lgraph g) ∧ vertices (og_graph g) = order ∧
    (∀ u, contains (og_graph g) u = contains G u) ∧
    (∀ u v, adjacent (og_graph g) u v = adjacent G u v).
Proof.
  intros Hwf Hl. destruct (C23_degeneracy_order G Hwf Hl) as (lo & up & order & core & Hd & Hnd & Ho & _).
  destruct (C34_with_ordering G order Hwf Hl Hnd) as (g & Hok & Hlw & Hvs & _ & _ & Hc & Ha & _).
  { intros u v Huv. apply Ho. by eapply (wf_adj_vtx _ Hwf). }
  exists g, lo, up, order, core. split_and!; try done.
  - unfold og_by_degeneracy. by rewrite Hd.
  - intros u. apply eq_true_iff_eq. rewrite Hc. apply Ho.
Qed.

(** Default methods of LinearGraph on every well-formed linear graph. *)
Theorem C34_degree_maps (L : lgraph) : lgraph_wf L →
  ∃ m d, left_degrees L = Ok m ∧ max_left_degree L = Ok d ∧
    (∀ u, contains L u = true → ∃ l, left_neighbours L u = Ok l ∧ m !! u = Some (length l) ∧ length l ≤ d) ∧
    (∀ u, contains L u = false → m !! u = None ∧ left_degree L u = Ok 0) ∧
    (d = 0 ∨ ∃ u l, contains L u = true ∧ left_neighbours L u = Ok l ∧ length l = d) ∧
    (∀ u, right_degrees L !! u = if contains L u then Some (right_degree L u) else None) ∧
    (∀ u, contains L u = true → right_degree L u ≤ max_right_degree L) ∧
    (max_right_degree L = 0 ∨ ∃ u, contains L u = true ∧ right_degree L u = max_right_degree L).
Proof.
  intros H. destruct (left_degrees_spec L H) as (m & Hm & Hlk).
  eexists m, _. split; [done|]. split; [by apply max_left_degree_fold|].
  destruct (fold_max_spec (ldeg L) (vertices L) 0) as [[_ H1] H2].
  destruct (fold_max_spec (right_degree L) (vertices L) 0) as [[_ H3] H4]. cbv zeta in *.
  pose proof (wf_vertices _ (lwf_graph _ H)) as Hv. split_and!.
  - intros u Hu. destruct (lwf_left _ H u Hu) as (l & Hl & _). exists l. rewrite Hlk, Hu.
    assert (ldeg L u = length l) as Hd by (unfold ldeg; by rewrite Hl). rewrite <- Hd. split_and!; [done|done|]. by apply H1, Hv.
  - intros u Hu. rewrite Hlk, Hu. split; [done|]. unfold left_degree. by rewrite Hu.
  - destruct H2 as [->|(u & Hu%Hv & Hd)]; [by left|]. right. destruct (lwf_left _ H u Hu) as (l & Hl & _).
    exists u, l. split_and!; [done|done|]. rewrite <- Hd. unfold ldeg. by rewrite Hl.
  - intros u. unfold right_degrees. rewrite foldl_insert_lookup, lookup_empty. specialize (Hv u). unfold vtx in Hv.
    destruct (contains L u), (decide (u ∈ vertices L)); naive_solver.
  - intros u Hu. by apply H3, Hv.
  - destruct H4 as [H4|(u & Hu%Hv & Hd)]; [by left|]. right. eauto.
Qed.

(** ** C35.  Any sequence of swaps of pairs not adjacent in [G] (absent vertices and equal pairs
    included) leaves the OrdGraph exact for the permuted order.  Full claim: for adjacent pairs
    too; refuted below. *)
Definition swap_effect (order : list N) (p : N * N) : list N :=
  if decide (p.1 ∈ order ∧ p.2 ∈ order) then swap_order p.1 p.2 order else order.

Theorem C35_swap_nonadjacent_partial (G : graph) (order : list N) (ps : list (N * N)) :
  graph_wf G → loopless G → NoDup order → (∀ u v, adjacent G u v = true → u ∈ order) →
  (∀ p, p ∈ ps → adjacent G p.1 p.2 = false) →
  ∃ g g' order', og_with_ordering G order = Ok g ∧
    fold_res (λ g p, og_swap g p.1 p.2) ps g = Ok g' ∧ lgraph_wf (og_lgraph g') ∧
    order' = foldl swap_effect order ps ∧
    vertices (og_graph g') = order' ∧ num_edges (og_graph g') = num_edges G ∧
    (∀ u v, adjacent (og_graph g') u v = adjacent G u v) ∧
    (∀ u i, index_of (og_lgraph g') u = Ok i ↔ order' !! i = Some u) ∧
    (∀ u, u ∈ order' → ∃ l r, left_neighbours (og_lgraph g') u = Ok l ∧ og_right_neighbours g' u = Ok r ∧
       lists_in_order order' (λ v, adjacent G u v = true ∧ before order' v u) l ∧
       lists_in_order order' (λ v, adjacent G u v = true ∧ before order' u v) r).
Proof.
  intros Hwf Hl Hnd Hcov Hps. destruct (with_ordering_spec G order Hwf Hl Hnd Hcov) as (g & Hok & Hex).
  assert (∃ g', fold_res (λ g p, og_swap g p.1 p.2) ps g = Ok g' ∧ og_exact G (foldl swap_effect order ps) g') as (g' & Hg' & Hex').
  { clear Hok Hnd Hcov. revert g order Hex. induction ps as [|[u v] ps IH]; intros g order Hex; [by exists g|].
    cbn [fold_res foldl].
    destruct (og_swap_exact G order g u v Hwf Hl Hex) as (g1 & Hg1 & Hex1).
    { unfold adj. specialize (Hps (u, v) ltac:(set_solver)). cbn in Hps. by rewrite Hps. }
    cbn [fst snd]. rewrite Hg1. cbn [mbind res_bind]. apply IH; [set_solver|done]. }
  set (order' := foldl swap_effect order ps) in *.
  exists g, g', order'. split_and!; [done|done|by eapply og_lgraph_wf|done|by eapply og_verts|apply Hex'| | |].
  - intros u v. apply eq_true_iff_eq. by eapply (og_adj G order' g').
  - intros u i. cbn. rewrite unwrap_ok. by eapply (oe_pos G order' g').
  - intros u Hu. destruct (og_left_spec G order' g' Hex' u Hu) as (l & Hll & Hlo).
    destruct (og_right_spec G order' g' Hex' u Hu) as (r & Hr & Hro). by exists l, r.
Qed.

(** The exact effect of a swap of any two distinct vertices, adjacent or not: positions and
    adjacency are right, but adjacent [u] and [v] are both put into each other's right set. *)
Theorem C35_swap_exact (G : graph) (order : list N) (u v : N) :
  graph_wf G → loopless G → NoDup order → (∀ u v, adjacent G u v = true → u ∈ order) →
  u ∈ order → v ∈ order → u ≠ v →
  ∃ g g' order', og_with_ordering G order = Ok g ∧ og_swap g u v = Ok g' ∧ order' = swap_order u v order ∧
    vertices (og_graph g') = order' ∧ num_edges (og_graph g') = num_edges G ∧
    (∀ x y, adjacent (og_graph g') x y = adjacent G x y) ∧
    (∀ x i, index_of (og_lgraph g') x = Ok i ↔ order' !! i = Some x) ∧
    (∀ x, x ∈ order' → ∃ l r, left_neighbours (og_lgraph g') x = Ok l ∧ og_right_neighbours g' x = Ok r ∧
       lists_in_order order' (λ y, adjacent G x y = true ∧ before order' y x ∧
         ¬ ((x = u ∧ y = v) ∨ (x = v ∧ y = u))) l ∧
       lists_in_order order' (λ y, adjacent G x y = true ∧ (before order' x y ∨
         (x = u ∧ y = v) ∨ (x = v ∧ y = u))) r).
Proof.
  intros Hwf Hl Hnd Hcov Hu Hv Hne. destruct (with_ordering_spec G order Hwf Hl Hnd Hcov) as (g & Hok & Hex).
  destruct (og_swap_spec G order g u v Hwf Hl Hex Hu Hv Hne) as (g' & Hg' & Hm & Hrep).
  set (order' := swap_order u v order) in *.
  assert (∀ x, x ∈ order' ↔ x ∈ order) as Hel by (intros; by apply swap_order_elem).
  assert (∀ x y, adjacent G x y = true → x ∈ order' ∧ y ∈ order') as Hcov'.
  { intros x y Hxy. rewrite !Hel. split; [by eapply Hcov|]. by eapply Hcov, (wf_adj_sym _ Hwf). }
  exists g, g', order'. split_and!; [done|done|done|apply Hrep| | | |].
  - cbn. rewrite Hm. apply Hex.
  - intros x y. apply eq_true_iff_eq. rewrite (og_rep_adjacent _ _ _ _ _ _ Hrep). unfold swL, swR, adj. split; [tauto|].
    intros Hxy. split; [by apply (Hcov' x y)|].
    destruct (decide ((x = u ∧ y = v) ∨ (x = v ∧ y = u))); [tauto|].
    assert (before order' x y ∨ before order' y x); [|tauto].
    pose proof (or_pos _ _ _ _ _ Hrep) as Hp. rewrite !(px_before _ _ _ _ Hp). destruct (Hcov' _ _ Hxy).
    assert (px (og_indices g') x ≠ px (og_indices g') y).
    { intros Heq. assert (x = y) as -> by (by eapply px_inj). by apply Hl in Hxy. }
    destruct (decide (px (og_indices g') x < px (og_indices g') y)); [tauto|]. right. split_and!; try done. lia.
  - intros x i. cbn. rewrite unwrap_ok. apply (or_pos _ _ _ _ _ Hrep).
  - intros x Hx. destruct (og_rep_left _ _ _ _ x Hrep Hx) as (l & Hll & Hlo).
    { intros y (Hxy & _). by apply (Hcov' x y). }
    destruct (og_rep_right _ _ _ _ x Hrep Hx) as (r & Hr & Hro).
    { intros y (Hxy & _). by apply (Hcov' x y). }
    by exists l, r.
Qed.

(** The full claim fails: after swapping the ends of an edge, the later one does not have the
    earlier one among its left neighbours. *)
Theorem C35_swap_adjacent_refuted : ∃ G order u v g g' x y,
  graph_wf G ∧ loopless G ∧ og_with_ordering G order = Ok g ∧ og_swap g u v = Ok g' ∧
  adjacent G x y = true ∧ before (vertices (og_graph g')) y x ∧
  left_neighbours (og_lgraph g') x = Ok [] ∧ ¬ lgraph_wf (og_lgraph g').
Proof.
  destruct (C01_editgraph_refines [AddEdge 0 1]) as (h & Hh & HV & HE).
  assert (graph_wf (eg_graph h)) as Hwf by (apply eg_graph_wf, eg_reachable_wf; by eexists _, _).
  assert (∀ a b, adjacent (eg_graph h) a b = true ↔ (a = 0 ∧ b = 1)%N ∨ (a = 1 ∧ b = 0)%N) as Hadj.
  { intros a b. cbn. rewrite HE. unfold a_adj. cbn. unfold upair at 1.
    rewrite elem_of_union, elem_of_singleton. destruct (N.leb_spec a b); split; intros; destruct_or?; simplify_eq/=; set_solver || lia. }
  assert (loopless (eg_graph h)) as Hl.
  { intros a Ha%Hadj. lia. }
  destruct (C35_swap_exact (eg_graph h) [0; 1]%N 0 1 Hwf Hl) as (g & g' & order' & Hg & Hg' & Ho & Hvs & _ & _ & _ & Hlr).
  - apply NoDup_cons. split; [set_solver|apply NoDup_singleton].
  - intros a b Hab%Hadj. set_solver.
  - set_solver.
  - set_solver.
  - done.
  - assert (order' = [1; 0]%N) as -> by done.
    assert (before [1; 0]%N 1%N 0%N) as Hb by (exists 0, 1; split_and!; [done|done|lia]).
    destruct (Hlr 0%N) as (l & r & Hll & Hr & [Hl1 _] & _); [set_solver|].
    assert (l = []) as ->.
    { destruct l as [|y l]; [done|]. destruct (proj1 (Hl1 y)) as (Hy%Hadj & _ & Hn); [set_solver|]. destruct Hn. lia. }
    exists (eg_graph h), [0; 1]%N, 0%N, 1%N, g, g', 0%N, 1%N. split_and!; try done.
    + apply Hadj. auto.
    + by rewrite Hvs.
    + intros Hw. assert (vtx (og_lgraph g') 0%N) as Hv0.
      { apply (wf_vertices _ (lwf_graph _ Hw)). change (vertices (og_lgraph g')) with (vertices (og_graph g')). rewrite Hvs. set_solver. }
      destruct (lwf_left _ Hw 0%N Hv0) as (l & Hll' & [Hin _]). rewrite Hll in Hll'. injection Hll' as <-.
      specialize (Hin 1%N). change (vertices (og_lgraph g')) with (vertices (og_graph g')) in Hin. rewrite Hvs in Hin.
      assert (adj (og_lgraph g') 0%N 1%N) as H01.
      { destruct (C35_swap_exact (eg_graph h) [0; 1]%N 0 1 Hwf Hl) as (g2 & g2' & o2 & Hg2 & Hg2' & _ & _ & _ & Ha & _); [..|].
        - apply NoDup_cons. split; [set_solver|apply NoDup_singleton].
        - intros a b Hab%Hadj. set_solver.
        - set_solver.
        - set_solver.
        - done.
        - rewrite Hg in Hg2. injection Hg2 as <-. rewrite Hg' in Hg2'. injection Hg2' as <-.
          unfold adj. change (adjacent (og_lgraph g')) with (adjacent (og_graph g')). rewrite Ha. apply Hadj. auto. }
      set_solver.
Qed.

(** ** C36 *)
Theorem C36_leftmost (L : lgraph) (X : list N) : lgraph_wf L → (∀ x, x ∈ X → contains L x = true) →
  ∃ r, leftmost L X = Ok r ∧ (r = None ↔ X = []) ∧
    ∀ u, r = Some u → u ∈ X ∧ ∀ v, v ∈ X → v ≠ u → before (vertices L) u v.
Proof.
  intros H HX. destruct (leftmost_spec L X) as (r & Hr & Hn & Hs).
  { intros x Hx. by apply (lwf_index _ H), HX. }
  exists r. split_and!; [done|done|]. intros u Hu. destruct (Hs u Hu) as [Hux Hmin]. split; [done|].
  intros v Hv Hne. destruct (lwf_index _ H u (HX u Hux)) as [i Hi], (lwf_index _ H v (HX v Hv)) as [j Hj].
  specialize (Hmin v i j Hv Hi Hj). apply (lwf_index_lt _ H u v i j Hi Hj).
  destruct (decide (i = j)) as [<-|]; [|lia]. exfalso.
  pose proof (lwf_index_lt _ H u v i i Hi Hj) as H1. pose proof (lwf_index_lt _ H v u i i Hj Hi) as H2.
  assert (u ∈ vertices L ∧ v ∈ vertices L) as [Hu' Hv'] by (split; apply (wf_vertices _ (lwf_graph _ H)), HX; done).
  apply elem_of_list_lookup in Hu' as [a Ha], Hv' as [b Hb].
  destruct (decide (a = b)) as [->|]; [congruence|]. destruct (decide (a < b)).
  - assert (i < i); [|lia]. apply H1. by exists a, b.
  - assert (i < i); [|lia]. apply H2. exists b, a. split_and!; [done|done|lia].
Qed.
Theorem C36_rightmost (L : lgraph) (X : list N) : lgraph_wf L → (∀ x, x ∈ X → contains L x = true) →
  ∃ r, rightmost L X = Ok r ∧ (r = None ↔ X = []) ∧
    ∀ u, r = Some u → u ∈ X ∧ ∀ v, v ∈ X → v ≠ u → before (vertices L) v u.
Proof.
  intros H HX. destruct (rightmost_spec L X) as (r & Hr & Hn & Hs).
  { intros x Hx. by apply (lwf_index _ H), HX. }
  exists r. split_and!; [done|done|]. intros u Hu. destruct (Hs u Hu) as [Hux Hmin]. split; [done|].
  intros v Hv Hne. destruct (lwf_index _ H u (HX u Hux)) as [i Hi], (lwf_index _ H v (HX v Hv)) as [j Hj].
  specialize (Hmin v i j Hv Hi Hj). apply (lwf_index_lt _ H v u j i Hj Hi).
  destruct (decide (i = j)) as [<-|]; [|lia]. exfalso.
  pose proof (lwf_index_lt _ H u v i i Hi Hj) as H1. pose proof (lwf_index_lt _ H v u i i Hj Hi) as H2.
  assert (u ∈ vertices L ∧ v ∈ vertices L) as [Hu' Hv'] by (split; apply (wf_vertices _ (lwf_graph _ H)), HX; done).
  apply elem_of_list_lookup in Hu' as [a Ha], Hv' as [b Hb].
  destruct (decide (a = b)) as [->|]; [congruence|]. destruct (decide (a < b)).
  - assert (i < i); [|lia]. apply H1. by exists a, b.
  - assert (i < i); [|lia]. apply H2. exists b, a. split_and!; [done|done|lia].
Qed.

End with_iter.

Local Existing Instance std_iter.

(** Concrete cases: [ex_g2] (path 0-1-2 plus isolated 5) in the order 2,5,0,1; 0 and 2 are
    not adjacent. *)
Example ex_C34 : NoDup [2; 5; 0; 1]%N ∧
  (g ← og_with_ordering (eg_graph ex_g2) [2; 5; 0; 1]%N;
   l ← left_neighbours (og_lgraph g) 1; r ← og_right_neighbours g 2; d ← max_left_degree (og_lgraph g);
   Ok (vertices (og_graph g), l, r, d)) = Ok ([2; 5; 0; 1]%N, [2; 0]%N, [1]%N, 2).
Proof. split; [|vm_compute; done]. apply (bool_decide_unpack _). vm_compute. done. Qed.
Example ex_C34_panic : og_with_ordering (eg_graph ex_g2) [2; 5; 0]%N = Panic ∧
  og_with_ordering (eg_graph ex_g2) [2; 1; 0; 1]%N = Panic.
Proof. vm_compute. done. Qed.
Example ex_C35 : adjacent (eg_graph ex_g2) 0 5 = false ∧ adjacent (eg_graph ex_g2) 2 0 = false ∧
  (g ← og_with_ordering (eg_graph ex_g2) [2; 5; 1; 0]%N;
   g ← og_swap g 5 0; g ← og_swap g 2 5; l ← left_neighbours (og_lgraph g) 1; r ← og_right_neighbours g 1;
   Ok (vertices (og_graph g), l, r)) = Ok ([5; 0; 1; 2], [0], [2])%N.
Proof. vm_compute. done. Qed.
Example ex_C36 : (g ← og_with_ordering (eg_graph ex_g2) [2; 5; 0; 1]%N;
   a ← leftmost (og_lgraph g) [1; 5; 0]%N; b ← rightmost (og_lgraph g) [2; 0; 5]%N; Ok (a, b))
  = Ok (Some 5, Some 0)%N.
Proof. vm_compute. done. Qed.

Print Assumptions C34_with_ordering.
Print Assumptions C34_bad_order_panics.
Print Assumptions C34_by_degeneracy.
Print Assumptions C34_degree_maps.
Print Assumptions C35_swap_nonadjacent_partial.
Print Assumptions C35_swap_exact.
Print Assumptions C35_swap_adjacent_refuted.
Print Assumptions C36_leftmost.
Print Assumptions C36_rightmost.
