(** Property theorems C22-C26: components, degeneracy, is_bipartite.
    Each theorem is followed by a concrete case meeting its hypotheses. *)
From Verif Require Import Base Spec M_Graph M_Iterators M_EditGraph M_Algorithms S_Graph
  P_EditGraph P_EditGraph2 P_Graph P_Iterators P_Adds P_Generators P_Components P_Degeneracy P_Bipartite T_EditGraph.

(** Statement vocabulary (not code): a subgraph of minimum degree at least [k]. *)
Definition min_degree (G : graph) (H : gset N) (k : nat) : Prop :=
  ∀ v, v ∈ H → vtx G v ∧ ∃ l, NoDup l ∧ k ≤ length l ∧ ∀ u, u ∈ l → u ∈ H ∧ adj G v u.
(** [l] lists distinct neighbours of [v] left of [v] in [order]. *)
Definition left_of (G : graph) (order : list N) (v : N) (l : list N) : Prop :=
  NoDup l ∧ ∀ u, u ∈ l → adj G v u ∧ before order u v.

Section with_iter.
Context `{HI : HashIter}.

(** ** C22 *)
Theorem C22_components (G : graph) : graph_wf G →
  ∃ cs, components G = Ok cs ∧ NoDup cs ∧
    (∀ X, X ∈ cs → X ≠ ∅) ∧
    (∀ X Y, X ∈ cs → Y ∈ cs → X ≠ Y → X ## Y) ∧
    (∀ v, vtx G v ↔ ∃ X, X ∈ cs ∧ v ∈ X) ∧
    (∀ u v, vtx G u → (∃ X, X ∈ cs ∧ u ∈ X ∧ v ∈ X) ↔ rtc (adj G) u v).
Proof. apply components_spec. Qed.

(** ** C23 *)
Theorem C23_degeneracy_order (G : graph) : graph_wf G → loopless G →
  ∃ lo up order core, degeneracy G = Ok (lo, up, order, core) ∧
    NoDup order ∧ (∀ v, v ∈ order ↔ vtx G v) ∧ (∀ v, is_Some (core !! v) ↔ vtx G v).
Proof.
  intros Hwf Hl. destruct (degeneracy_inv G Hwf Hl) as (s & Hs & HIv & Hin).
  eexists _, _, _, _. split; [exact Hs|]. split_and!.
  - rewrite reverse_Permutation. apply HIv.
  - intros v. by rewrite elem_of_reverse.
  - intros v. by rewrite (gi_core _ _ HIv).
Qed.

(** ** C24 *)
Lemma min_degree_suffix G ord i k :
  graph_wf G → (∀ w, vtx G w → w ∉ take i ord → k ≤ rdeg G (take i ord) w) →
  min_degree G (list_to_set (vertices G) ∖ list_to_set (take i ord)) k.
Proof.
  intros Hwf Hk v. rewrite elem_of_difference, !elem_of_list_to_set, (wf_vertices _ Hwf). intros [Hv Hvo].
  split; [done|]. destruct (nbrs_spec G v Hwf Hv) as (_ & Hnd & Hn & _).
  exists (filter (λ u, u ∉ take i ord) (nbrs G v)). split_and!.
  - by apply NoDup_filter.
  - by apply Hk.
  - intros u [Hu1 Hu2]%elem_of_list_filter. apply Hn in Hu2. split; [|done].
    rewrite elem_of_difference, !elem_of_list_to_set, (wf_vertices _ Hwf). split; [|done].
    by apply (wf_adj_vtx _ Hwf u v), (wf_adj_sym _ Hwf).
Qed.

(** The core number of every vertex is attained: [v] lies in a subgraph of that minimum degree. *)
Theorem C24_core_attained (G : graph) lo up order core v c :
  graph_wf G → loopless G → degeneracy G = Ok (lo, up, order, core) →
  core !! v = Some c → ∃ H, v ∈ H ∧ min_degree G H c.
Proof.
  intros Hwf Hl Hd Hc. destruct (degeneracy_inv G Hwf Hl) as (s & Hs & HIv & Hin).
  rewrite Hd in Hs. injection Hs as -> -> -> ->.
  assert (v ∈ dgn_order s) as Hv by (apply (gi_core _ _ HIv); eauto).
  apply elem_of_list_lookup in Hv as [i Hi].
  destruct (gi_lower _ _ HIv i v c Hi Hc) as (i0 & Hle & Hlow).
  exists (list_to_set (vertices G) ∖ list_to_set (take i0 (dgn_order s))). split.
  - rewrite elem_of_difference, !elem_of_list_to_set, (wf_vertices _ Hwf). split.
    + apply Hin. by eapply elem_of_list_lookup_2.
    + intros (j & Hj & Hjl)%elem_of_take.
      pose proof (NoDup_lookup _ _ _ _ (gi_nodup _ _ HIv) Hi Hj). lia.
  - apply min_degree_suffix; [done|]. intros w Hw Hwo. etrans; [by apply Hlow|]. apply calc_index_le.
Qed.

(** Both returned numbers are lower bounds on the degeneracy. *)
Theorem C24_lower_bound (G : graph) lo up order core :
  graph_wf G → loopless G → degeneracy G = Ok (lo, up, order, core) → (∃ v, vtx G v) →
  lo ≤ up ∧ ∃ H, H ≠ ∅ ∧ min_degree G H up ∧ min_degree G H lo.
Proof.
  intros Hwf Hl Hd [v0 Hv0]. destruct (degeneracy_inv G Hwf Hl) as (s & Hs & HIv & Hin).
  pose proof Hd as Hd'. rewrite Hd in Hs. injection Hs as Hlo Hup Hor Hco.
  pose proof (dgn_lower_le up) as Hle. rewrite Hup, <- Hlo in Hle. split; [lia|].
  destruct (gi_num_last _ _ HIv) as [[He _]|[v Hv]].
  { apply Hin in Hv0. rewrite He in Hv0. set_solver. }
  rewrite <- Hco, <- Hup in Hv.
  destruct (C24_core_attained G lo up order core v up Hwf Hl Hd' Hv) as (H & HvH & Hm).
  exists H. split_and!; [set_solver|done|].
  intros w Hw. destruct (Hm w Hw) as (? & l & ? & ? & ?). split; [done|]. exists l. split_and!; [done|lia|done].
Qed.

(** No subgraph containing [v] has a larger minimum degree than the core number of [v]
    allows: exact below 130, exponential buckets above. *)
Theorem C24_core_maximal (G : graph) lo up order core v c H k :
  graph_wf G → loopless G → degeneracy G = Ok (lo, up, order, core) →
  core !! v = Some c → v ∈ H → min_degree G H k →
  (c ≤ 129 → k ≤ c) ∧ (130 ≤ c → k ≤ 127 + 2 ^ (c - 128)).
Proof.
  intros Hwf Hl Hd Hc HvH Hm. destruct (degeneracy_inv G Hwf Hl) as (s & Hs & HIv & Hin).
  rewrite Hd in Hs. injection Hs as -> -> -> ->.
  assert (k ≤ idx_max c) as Hk; [|unfold idx_max in Hk; case_decide; split; lia].
  assert (v ∈ dgn_order s) as Hv by (apply (gi_core _ _ HIv); eauto).
  apply elem_of_list_lookup in Hv as [i Hi].
  (* first vertex of H in the removal order *)
  assert (∃ j w, j ≤ i ∧ dgn_order s !! j = Some w ∧ w ∈ H ∧ ∀ x, x ∈ take j (dgn_order s) → x ∉ H)
    as (j & w & Hji & Hj & HwH & Hfirst).
  { clear Hm Hc Hd. revert v Hi HvH. induction (lt_wf i) as [i _ IH]; intros v Hi HvH.
    destruct (decide (Forall (λ x, x ∉ H) (take i (dgn_order s)))) as [Hall|Hn].
    - exists i, v. rewrite Forall_forall in Hall. done.
    - apply not_Forall_Exists in Hn; [|apply _]. apply Exists_exists in Hn as (x & (j & Hj & Hjl)%elem_of_take & HxH).
      apply dec_stable in HxH. destruct (IH j Hjl x Hj HxH) as (j' & w & ? & ? & ? & ?).
      exists j', w. split_and!; [lia|done..]. }
  destruct (Hm w HwH) as (Hw & l & Hnd & Hkl & Hin').
  assert (is_Some (dgn_core s !! w)) as [cw Hcw] by (apply (gi_core _ _ HIv); by eapply elem_of_list_lookup_2).
  pose proof (gi_mono _ _ HIv j i w v cw c Hj Hi Hcw Hc Hji) as Hmono.
  pose proof (gi_upper _ _ HIv j w cw Hj Hcw) as Hup.
  assert (length l ≤ rdeg G (take j (dgn_order s)) w) as Hlen.
  { unfold rdeg. apply submseteq_length, NoDup_submseteq; [done|]. intros u Hu. destruct (Hin' u Hu) as [HuH Hua].
    rewrite elem_of_list_filter. destruct (nbrs_spec G w Hwf Hw) as (_ & _ & Hn & _). rewrite Hn. split; [|done].
    intros Hu'. by apply (Hfirst u Hu'). }
  pose proof (calc_index_max (rdeg G (take j (dgn_order s)) w)) as Hmax.
  pose proof (idx_max_mono _ _ (Nat.le_trans _ _ _ Hup Hmono)). lia.
Qed.

(** Core numbers do not increase along the returned order. *)
Theorem C24_core_monotone (G : graph) lo up order core u v cu cv :
  graph_wf G → loopless G → degeneracy G = Ok (lo, up, order, core) →
  before order u v → core !! u = Some cu → core !! v = Some cv → cv ≤ cu ≤ up.
Proof.
  intros Hwf Hl Hd (i & j & Hi & Hj & Hij) Hu Hv. destruct (degeneracy_inv G Hwf Hl) as (s & Hs & HIv & Hin).
  rewrite Hd in Hs. injection Hs as -> -> -> ->. unfold pos in *.
  pose proof (lookup_lt_Some _ _ _ Hi) as Li. pose proof (lookup_lt_Some _ _ _ Hj) as Lj.
  rewrite reverse_length in Li, Lj. rewrite reverse_lookup in Hi, Hj by done. split.
  - eapply (gi_mono _ _ HIv); [exact Hj|exact Hi|exact Hv|exact Hu|lia].
  - by eapply (gi_num _ _ HIv).
Qed.

(** Missing for the full claim: core numbers of 130 and more, where the bound fails
    (see [C24_upper_bound_refuted]) and only the exponential one holds. *)
Theorem C24_left_degree_partial (G : graph) lo up order core v c l :
  graph_wf G → loopless G → degeneracy G = Ok (lo, up, order, core) →
  core !! v = Some c → left_of G order v l →
  c ≤ up ∧ (c ≤ 129 → length l ≤ c) ∧ (130 ≤ c → length l ≤ 127 + 2 ^ (c - 128)).
Proof.
  intros Hwf Hl Hd Hc [Hnd Hleft]. destruct (degeneracy_inv G Hwf Hl) as (s & Hs & HIv & Hin).
  rewrite Hd in Hs. injection Hs as -> -> -> ->.
  assert (v ∈ dgn_order s) as Hv by (apply (gi_core _ _ HIv); eauto).
  pose proof (proj1 (Hin v) Hv) as Hvv. apply elem_of_list_lookup in Hv as [i Hi].
  pose proof (left_degree_le G Hwf _ i v l (gi_nodup _ _ HIv) Hi Hvv Hnd Hleft) as Hlen.
  pose proof (gi_upper _ _ HIv i v c Hi Hc) as Hup.
  pose proof (calc_index_max (rdeg G (take i (dgn_order s)) v)) as Hmax.
  pose proof (idx_max_mono _ _ Hup) as Hm. split; [by eapply (gi_num _ _ HIv)|].
  unfold idx_max in *. repeat case_decide; split; lia.
Qed.

(** When the second component is at most 129 it is the exact degeneracy, and equal to the first. *)
Theorem C24_exact_small (G : graph) lo up order core :
  graph_wf G → loopless G → degeneracy G = Ok (lo, up, order, core) → (∃ v, vtx G v) → up ≤ 129 →
  lo = up ∧ (∃ H, H ≠ ∅ ∧ min_degree G H up) ∧
  (∀ H k, H ≠ ∅ → min_degree G H k → k ≤ up) ∧
  (∀ v l, left_of G order v l → length l ≤ up).
Proof.
  intros Hwf Hl Hd Hv0 Hle. destruct (degeneracy_inv G Hwf Hl) as (s & Hs & HIv & Hin).
  destruct (C24_lower_bound _ _ _ _ _ Hwf Hl Hd Hv0) as (_ & H & HH & Hm & _).
  pose proof Hs as Hs'. rewrite Hd in Hs'. injection Hs' as Hlo Hup Hor Hco.
  assert (∀ v, vtx G v → ∃ c, core !! v = Some c ∧ c ≤ up) as Hcs.
  { intros v Hv%Hin%(gi_core _ _ HIv). destruct Hv as [c Hc]. exists c. rewrite Hco, Hup. split; [done|].
    by eapply (gi_num _ _ HIv). }
  split_and!.
  - rewrite Hlo, <- Hup. by apply dgn_lower_small.
  - eauto.
  - intros H' k HH' Hm'. apply set_choose_L in HH' as [v Hv]. destruct (Hm' v Hv) as [Hvv _].
    destruct (Hcs v Hvv) as (c & Hc & Hcu).
    pose proof (C24_core_maximal _ _ _ _ _ _ _ _ _ Hwf Hl Hd Hc Hv Hm') as [Hk _]. specialize (Hk ltac:(lia)). lia.
  - intros v [|u l] Hleft; [cbn; lia|]. destruct Hleft as [Hnd Hleft].
    assert (vtx G v) as Hvv. { apply (wf_adj_vtx _ Hwf v u). apply Hleft. set_solver. }
    destruct (Hcs v Hvv) as (c & Hc & Hcu).
    pose proof (C24_left_degree_partial _ _ _ _ _ _ _ _ Hwf Hl Hd Hc (conj Hnd Hleft)) as (_ & Hk & _).
    specialize (Hk ltac:(lia)). lia.
Qed.

(** The clique on 132 vertices: the second component is at most 130, but the last vertex of
    every ordering has 131 left neighbours. *)
Theorem C24_upper_bound_refuted :
  ∃ G lo up order core v c l, graph_wf G ∧ loopless G ∧ degeneracy G = Ok (lo, up, order, core) ∧
    core !! v = Some c ∧ left_of G order v l ∧ c < length l ∧ up < length l.
Proof.
  destruct (eg_clique_spec 132) as (g & _ & Hg & HV & HE).
  pose proof (eg_graph_wf g Hg) as Hwf. set (G := eg_graph g) in *.
  assert (∀ x, vtx G x ↔ (x < 132)%N) as HV' by exact HV.
  assert (∀ x y, adj G x y ↔ (x < 132 ∧ y < 132 ∧ x ≠ y)%N) as HE' by exact HE. clearbody G. clear HV HE Hg g.
  assert (loopless G) as Hl by (intros u Hu%HE'; lia).
  destruct (degeneracy_inv G Hwf Hl) as (s & Hs & HIv & Hin).
  assert (dgn_order s ≡ₚ range 0 132) as Hperm.
  { apply NoDup_Permutation; [apply HIv|apply NoDup_range|]. intros x. rewrite Hin, HV', elem_of_range. lia. }
  assert (length (dgn_order s) = 132) as Hlen by (rewrite Hperm; done).
  assert (∀ v c, dgn_core s !! v = Some c → c ≤ 130) as Hle.
  { intros v c Hc. assert (v ∈ dgn_order s) as Hv by (apply (gi_core _ _ HIv); eauto).
    pose proof (proj1 (HV' v) (proj1 (Hin v) Hv)) as Hv132.
    apply elem_of_list_lookup in Hv as [i Hi]. pose proof (lookup_lt_Some _ _ _ Hi) as Hil.
    destruct (gi_lower _ _ HIv i v c Hi Hc) as (i0 & Hi0 & Hlow).
    etrans; [apply (Hlow v); [by apply HV'|]|].
    - intros (j & Hj & Hjl)%elem_of_take. pose proof (NoDup_lookup _ _ _ _ (gi_nodup _ _ HIv) Hi Hj). lia.
    - assert (calc_index 131 = 130) as <- by (vm_compute; done). apply calc_index_mono.
      unfold rdeg. etrans; [apply filter_length|].
      destruct (nbrs_spec G v Hwf) as (_ & Hnd & Hn & _); [by apply HV'|].
      assert (length (v :: nbrs G v) ≤ length (range 0 132)) as Hll; [|change (length (range 0 132)) with 132 in Hll; cbn [length] in Hll; lia].
      apply submseteq_length, NoDup_submseteq.
      + apply NoDup_cons. split; [|done]. rewrite Hn. apply Hl.
      + intros x [->|Hx]%elem_of_cons; apply elem_of_range; [lia|]. apply Hn, HE' in Hx. lia. }
  destruct (dgn_order s) as [|v rest] eqn:Eo; [done|].
  assert (is_Some (dgn_core s !! v)) as [c Hc].
  { apply (gi_core _ _ HIv). rewrite Eo. set_solver. }
  pose proof (gi_nodup _ _ HIv) as Hnd. rewrite Eo in Hnd.
  exists G. eexists _, _, _, _. exists v, c, (reverse rest). split_and!; [done|done|exact Hs|exact Hc| | |].
  - split.
    + rewrite reverse_Permutation. by apply NoDup_cons in Hnd as [_ ?].
    + intros u Hu. rewrite elem_of_reverse in Hu. split.
      * apply HE'. apply NoDup_cons in Hnd as [Hnv _].
        assert (vtx G v ∧ vtx G u) as [Hv1 Hu1] by (split; apply Hin; set_solver).
        apply HV' in Hv1, Hu1. split_and!; [done|done|]. intros ->. done.
      * rewrite reverse_cons. apply elem_of_reverse, elem_of_list_lookup in Hu as [i Hi].
        pose proof (lookup_lt_Some _ _ _ Hi).
        exists i, (length (reverse rest)). unfold pos. split_and!; [by rewrite lookup_app_l| |done].
        by rewrite list_lookup_middle.
  - apply Hle in Hc. rewrite reverse_length. cbn in Hlen. lia.
  - rewrite reverse_length. cbn in Hlen.
    destruct (gi_num_last _ _ HIv) as [[He _]|[x Hx%Hle]]; [congruence|lia].
Qed.

(** ** C25 *)
Theorem C25_is_bipartite_total (G : graph) : graph_wf G →
  ∃ w, is_bipartite G = Ok w.
Proof. intros Hwf. destruct (is_bipartite_spec G Hwf) as (w & ? & _). eauto. Qed.

Theorem C25_bipartition (G : graph) L R : graph_wf G →
  is_bipartite G = Ok (Bipartition L R) →
  L ## R ∧ (∀ v, v ∈ L ∪ R ↔ vtx G v) ∧
  (∀ u v, adj G u v → (u ∈ L ∧ v ∈ R) ∨ (u ∈ R ∧ v ∈ L)).
Proof. intros Hwf Hb. destruct (is_bipartite_spec G Hwf) as (w & Hw & Hs). rewrite Hb in Hw. by injection Hw as <-. Qed.

Theorem C25_iff_two_colourable (G : graph) : graph_wf G →
  (∃ L R, is_bipartite G = Ok (Bipartition L R)) ↔ ∃ f : N → bool, ∀ u v, adj G u v → f u ≠ f v.
Proof.
  intros Hwf. destruct (is_bipartite_spec G Hwf) as (w & Hw & Hs). split.
  - intros (L & R & Hb). rewrite Hb in Hw. injection Hw as <-. destruct Hs as (Hd & _ & He).
    exists (λ v, bool_decide (v ∈ L)). intros u v Huv. destruct (He u v Huv) as [[? ?]|[? ?]].
    + rewrite bool_decide_true, bool_decide_false; [done|set_solver|done].
    + rewrite bool_decide_false, bool_decide_true; [done|done|set_solver].
  - intros Hf. destruct w as [L R|c]; [eauto|]. destruct Hs as [Hc Ho].
    destruct (odd_closed_walk_not_2col _ _ Hc Ho Hf).
Qed.

(** ** C26 *)
(** Missing for the full claim: that no vertex repeats, which is false (next theorem). *)
Theorem C26_odd_closed_walk_partial (G : graph) c : graph_wf G →
  is_bipartite G = Ok (OddCycle c) → closed_walk (adj G) c ∧ Nat.odd (length c) = true ∧
    ∀ v, v ∈ c → vtx G v.
Proof.
  intros Hwf Hb. destruct (is_bipartite_spec G Hwf) as (w & Hw & Hs). rewrite Hb in Hw. injection Hw as <-.
  destruct Hs as [Hc Ho]. split_and!; [done|done|].
  intros v Hv. destruct Hc as (Hwk & x & y & Hx & Hy & Hyx).
  clear Ho Hx Hb. revert x Hyx. induction c as [|a [|b c] IH]; intros x Hyx; [set_solver| |].
  - apply elem_of_list_singleton in Hv as ->. injection Hy as ->. by eapply (wf_adj_vtx _ Hwf).
  - destruct Hwk as [Hab Hwk]. apply elem_of_cons in Hv as [->|Hv]; [by eapply (wf_adj_vtx _ Hwf)|]. by eapply IH.
Qed.

End with_iter.

Local Existing Instance std_iter.

(** K4: the conflict found by the search closes a walk through a repeated vertex. *)
Theorem C26_no_repetition_refuted :
  ∃ G c, graph_wf G ∧ is_bipartite G = Ok (OddCycle c) ∧ ¬ NoDup c.
Proof.
  destruct (eg_clique_spec 4) as (g & Hg & Hwf & _).
  exists (eg_graph g). assert (is_bipartite (eg_graph g) = (g ← eg_clique 4; is_bipartite (eg_graph g))) as ->.
  { rewrite Hg. done. }
  eexists. split_and!; [by apply eg_graph_wf|vm_compute; reflexivity|].
  intros H. apply (NoDup_lookup _ 0 3 2%N) in H; done.
Qed.

(** Concrete cases: [ex_g2] is the path 0-1-2 plus the isolated vertex 5 (loopless);
    [ex_g] has a loop at 3. *)
Example ex_algorithms_reachable :
  graph_wf (eg_graph ex_g) ∧ graph_wf (eg_graph ex_g2) ∧ loopless (eg_graph ex_g2).
Proof.
  destruct (C01_editgraph_refines ex_ops) as (g & Hg & _).
  destruct (C01_editgraph_refines ex_ops2) as (g2 & Hg2 & HV & HE).
  unfold ex_g, ex_g2. rewrite Hg, Hg2. split_and!.
  - apply eg_graph_wf, eg_reachable_wf. by eexists _, _.
  - apply eg_graph_wf, eg_reachable_wf. by eexists _, _.
  - intros u Hu. apply HE in Hu. unfold a_adj, upair in Hu. rewrite N.leb_refl in Hu. cbn in Hu.
    repeat (apply elem_of_union in Hu as [Hu|Hu]; [apply elem_of_singleton in Hu; simplify_eq; lia|]). set_solver.
Qed.
Example ex_C22 : (r ← components (eg_graph ex_g); Ok (map elements r)) = Ok [[7]; [1; 3; 2]]%N.
Proof. vm_compute. done. Qed.
Example ex_C23_C24 : (r ← degeneracy (eg_graph ex_g2); Ok (r.1, map_to_list r.2))
  = Ok (1, 1, [2; 1; 0; 5]%N, [(0%N, 1); (1%N, 1); (5%N, 0); (2%N, 1)]).
Proof. vm_compute. done. Qed.
Example ex_C24_before : left_of (eg_graph ex_g2) [2; 1; 0; 5]%N 1%N [2%N] ∧
  min_degree (eg_graph ex_g2) {[0; 1]}%N 1.
Proof.
  split.
  - split; [apply NoDup_singleton|]. intros u ->%elem_of_list_singleton. split; [done|].
    exists 0, 1. split_and!; [done|done|lia].
  - intros v Hv. assert (v = 0 ∨ v = 1)%N as [->| ->] by set_solver; (split; [done|]).
    + exists [1]%N. split_and!; [apply NoDup_singleton|done|]. intros u ->%elem_of_list_singleton. split; [set_solver|done].
    + exists [0]%N. split_and!; [apply NoDup_singleton|done|]. intros u ->%elem_of_list_singleton. split; [set_solver|done].
Qed.
Example ex_C25 : (r ← is_bipartite (eg_graph ex_g2);
    Ok (match r with Bipartition L R => Some (elements L, elements R) | _ => None end))
  = Ok (Some ([0; 5; 2], [1]))%N.
Proof. vm_compute. done. Qed.
Example ex_C26 : is_bipartite (eg_graph ex_g) = Ok (OddCycle [3; 3; 2; 1; 2]%N).
Proof. vm_compute. done. Qed.

Print Assumptions C22_components.
Print Assumptions C23_degeneracy_order.
Print Assumptions C24_core_attained.
Print Assumptions C24_lower_bound.
Print Assumptions C24_core_maximal.
Print Assumptions C24_core_monotone.
Print Assumptions C24_left_degree_partial.
Print Assumptions C24_exact_small.
Print Assumptions C24_upper_bound_refuted.
Print Assumptions C25_is_bipartite_total.
Print Assumptions C25_bipartition.
Print Assumptions C25_iff_two_colourable.
Print Assumptions C26_odd_closed_walk_partial.
Print Assumptions C26_no_repetition_refuted.
