(** Property C94: the functions of the Graph trait called on an EditDigraph. *)
From Verif Require Import Base Spec M_Graph M_Iterators M_EditGraph M_EditDigraph M_Algorithms M_Operations S_Graph S_Multi S_Digraph
  P_EditGraph P_EditGraph2 P_Graph P_Iterators P_Unions P_Operations P_Components P_Degeneracy P_Multi P_Bipartite P_EditDigraph P_EditDigraph2 P_Twin
  T_Algorithms T_EditDigraph.

(** [e] is the undirected graph under the digraph [g]. *)
Definition underlying `{HashIter} (g : editdigraph) (e : editgraph) : Prop :=
  eg_reachable e ∧ (∀ u, eg_contains e u = ed_contains g u) ∧
  (∀ u v, eg_adjacent e u v = ed_has_arc g u v || ed_has_arc g v u).
(** The arcs of [g] in both directions. *)
Definition both (g : editdigraph) (u v : N) : Prop := ed_has_arc g u v = true ∨ ed_has_arc g v u = true.
(** Every member of [H] has at least [k] arcs to or from members of [H]. *)
Definition arc_degree (g : editdigraph) (H : gset N) (k : nat) : Prop :=
  ∀ v, v ∈ H → ed_contains g v = true ∧ ∃ lo li, NoDup lo ∧ NoDup li ∧ k ≤ length lo + length li ∧
    (∀ u, u ∈ lo → u ∈ H ∧ ed_has_arc g v u = true) ∧ (∀ u, u ∈ li → u ∈ H ∧ ed_has_arc g u v = true).

Lemma filter_ext_in {A} (P Q : A → Prop) {dP : ∀ x, Decision (P x)} {dQ : ∀ x, Decision (Q x)} (l : list A) :
  (∀ x, x ∈ l → P x ↔ Q x) → filter P l = filter Q l.
Proof.
  induction l as [|x l IH]; intros Hx; [done|]. rewrite !filter_cons, IH by (intros y Hy; apply Hx; by right).
  pose proof (Hx x ltac:(by left)). destruct (decide (P x)), (decide (Q x)); tauto.
Qed.
Lemma fold_res_ext_in {A S} (f f' : S → A → res S) l : (∀ a s, a ∈ l → f s a = f' s a) → ∀ s, fold_res f l s = fold_res f' l s.
Proof.
  induction l as [|a l IH]; intros Hf s; [done|]. cbn. rewrite Hf by set_solver. destruct (f' s a); cbn; [|done..].
  apply IH. intros b s' Hb. apply Hf. set_solver.
Qed.

(** Functions that do not call [adjacent] do not depend on it. *)
Section ext.
Context `{HI : HashIter} (G G' : graph) (Hn : neighbours G = neighbours G') (Hv : vertices G = vertices G') (Hc : contains G = contains G').
Lemma closed_ext X : closed_neighbourhood G X = closed_neighbourhood G' X.
Proof using Hn. unfold closed_neighbourhood. by rewrite Hn. Qed.
Lemma rn_ext X r : r_neighbourhood G X r = r_neighbourhood G' X r.
Proof using Hn.
  unfold r_neighbourhood. generalize (list_to_set X : gset N). induction r as [|r IH]; intros acc; cbn; [done|].
  rewrite closed_ext. destruct (closed_neighbourhood G' _); cbn; [apply IH|done..].
Qed.
Lemma bip_ext : is_bipartite G = is_bipartite G'.
Proof using Hn Hv.
  assert (∀ fuel st cols un, bip_loop G fuel st cols un = bip_loop G' fuel st cols un) as H1.
  { induction fuel as [|fuel IH]; intros st cols un; cbn; [done|]. destruct st as [|[[c v] p] st]; [done|].
    destruct (cols !! v) as [[]|]; [case_bool_decide; [done|apply IH]|]. rewrite Hn. destruct (neighbours G' v); cbn; [apply IH|done..]. }
  assert (bip_fuel G = bip_fuel G') as H2 by (unfold bip_fuel; by rewrite Hn, Hv).
  assert (∀ fuel cols un, bip_outer G fuel cols un = bip_outer G' fuel cols un) as H3.
  { induction fuel as [|fuel IH]; intros cols un; cbn -[bip_loop bip_fuel]; [done|]. case_bool_decide; [done|]. destruct (unwrap _); cbn -[bip_loop bip_fuel]; [|done..].
    rewrite H1, H2. destruct (bip_loop _ _ _ _ _) as [[[? ?] []]| |]; cbn -[bip_loop bip_fuel]; [done|apply IH|done..]. }
  unfold is_bipartite. by rewrite Hv, H3.
Qed.
End ext.

Section di.
Context `{HI : HashIter}.

(** The Graph implementation of EditDigraph with a symmetric [adjacent]: what every function
    that does not call [adjacent] sees. *)
Definition sym_graph (g : editdigraph) : graph := {|
  num_vertices := ed_num_vertices g; num_edges := ed_num_edges g; contains := ed_contains g;
  adjacent := λ u v, ed_has_arc g u v || ed_has_arc g v u; degree := ed_degree g;
  vertices := vertices (ed_graph g); neighbours := ed_neighbours g |}.

Lemma sym_adj g u v : adj (sym_graph g) u v ↔ both g u v.
Proof. unfold adj, both. cbn. by rewrite orb_true_iff. Qed.

Lemma sym_weak g : ed_wf g → weak_wf (sym_graph g).
Proof.
  intros Hg. split.
  - intros u. apply (ed_vertices g u Hg).
  - apply ed_vertices_nodup.
  - apply ed_num_vertices_spec.
  - intros u v [Ha|Ha]%sym_adj; apply (darc_vtx g _ _ Hg Ha).
  - intros u v [?|?]%sym_adj; apply sym_adj; [by right|by left].
  - intros u Hu. destruct (ed_neighbours_spec g u Hg Hu) as (li & lo & E & _ & _ & Hi & Ho).
    exists (li ++ lo). split; [done|]. intros v. rewrite elem_of_app, Hi, Ho, sym_adj. unfold both, darc. tauto.
Qed.

Lemma nodup_occ v l : NoDup l → occ v l = if decide (v ∈ l) then 1 else 0.
Proof.
  induction l as [|u l IH]; intros Hnd; [by rewrite decide_False by set_solver|]. apply NoDup_cons in Hnd as [Hu Hnd].
  rewrite occ_cons, IH by done. destruct (decide (u = v)) as [->|Hn].
  - rewrite (decide_False (P := v ∈ l)), decide_True by set_solver. done.
  - destruct (decide (v ∈ l)); [rewrite decide_True by set_solver|rewrite decide_False by set_solver]; done.
Qed.

Lemma sym_multi g : ed_wf g → multi_wf (sym_graph g).
Proof.
  intros Hg. split; [by apply sym_weak| |].
  - intros v l Hv Hl. cbn in *. destruct (ed_out_neighbours_spec g v Hg Hv) as (lo & _ & No & Mo & _ & Do), (ed_in_neighbours_spec g v Hg Hv) as (li & _ & Ni & Mi & _ & Di).
    destruct (ed_neighbours_spec g v Hg Hv) as (li' & lo' & E & Ni' & No' & Hi & Ho). rewrite Hl in E. injection E as ->.
    unfold ed_degree. rewrite Do, Di. cbn. rewrite app_length. f_equal; apply Permutation_length, NoDup_Permutation; try done; intros x; [by rewrite Mi, Hi|by rewrite Mo, Ho].
  - intros u v lu lv Hu Hv Elu Elv. cbn in *.
    destruct (ed_neighbours_spec g u Hg Hu) as (li & lo & E & Ni & No & Hi & Ho). rewrite Elu in E. injection E as ->.
    destruct (ed_neighbours_spec g v Hg Hv) as (li' & lo' & E & Ni' & No' & Hi' & Ho'). rewrite Elv in E. injection E as ->.
    rewrite !occ_app, !nodup_occ by done.
    assert (∀ P Q (dp : Decision P) (dq : Decision Q), (P ↔ Q) → (if dp then 1 else 0) = (if dq then 1 else 0)) as Hd.
    { intros P Q [] []; tauto. }
    rewrite Nat.add_comm. f_equal; apply Hd; [by rewrite Ho, Hi'|by rewrite Hi, Ho'].
Qed.

Lemma und_twin g e : ed_wf g → underlying g e → twin (sym_graph g) (eg_graph e).
Proof.
  intros Hg (Re & Ve & Ae). pose proof (proj1 (eg_reachable_wf e) Re) as We. pose proof (eg_graph_wf e We) as Ge.
  split; [by apply sym_weak|by apply graph_wf_weak| | |].
  - cbn. f_equal. apply set_eq. intros x. pose proof (ed_vertices g x Hg) as H1. pose proof (wf_vertices _ Ge x) as H2. unfold vtx in H2. cbn in H1, H2.
    rewrite elem_of_hash_iter in H1, H2. rewrite H1, H2. unfold dvtx. by rewrite Ve.
  - intros u v. unfold adj. cbn. by rewrite Ae.
  - intros v Hv. unfold vtx in Hv. cbn in Hv |- *. split.
    + unfold ed_neighbours. destruct (ed_contains g v); [done|]. done.
    + rewrite <- Ve in Hv. unfold eg_contains in Hv. by destruct (eg_adj e !! v).
Qed.

(** ** C94: every digraph has exactly one underlying graph *)
Theorem C94_underlying (g : editdigraph) : ed_reachable g →
  ∃ e, underlying g e ∧ (∀ e', underlying g e' → e' = e) ∧ merge_graphs (ed_graph g) (ed_graph g) = Ok e.
Proof.
  intros Hg%ed_reachable_wf. destruct (merge_spec (sym_graph g) (sym_graph g) (sym_weak g Hg) (sym_weak g Hg)) as (e & E & We & Ve & Ae).
  exists e. split_and!.
  - split_and!; [by apply eg_reachable_wf| |].
    + intros u. apply eq_true_iff_eq. rewrite (Ve u). unfold vtx. cbn. tauto.
    + intros u v. apply eq_true_iff_eq. rewrite (Ae u v). unfold adj. cbn. tauto.
  - intros e' (Re' & Ve' & Ae'). apply eg_wf_ext; [by apply eg_reachable_wf|done| |].
    + intros u. unfold ev. rewrite Ve'. rewrite (Ve u). unfold vtx. cbn. tauto.
    + intros u v. unfold ea. rewrite Ae'. rewrite (Ae u v). unfold adj. cbn. tauto.
  - exact E.
Qed.

(** ** C94: these functions return the same value for the digraph as for the graph under it *)
Theorem C94_neighbourhoods (g : editdigraph) (e : editgraph) (X : list N) : ed_reachable g → underlying g e →
  neighbourhood (ed_graph g) X = neighbourhood (eg_graph e) X ∧
  closed_neighbourhood (ed_graph g) X = closed_neighbourhood (eg_graph e) X ∧
  (∀ r, r_neighbourhood (ed_graph g) X r = r_neighbourhood (eg_graph e) X r) ∧
  subgraph (ed_graph g) X = subgraph (eg_graph e) X.
Proof.
  intros Hg%ed_reachable_wf Hu. destruct (twin_neighbourhoods _ _ X (und_twin g e Hg Hu)) as (H1 & H2 & H3 & H4).
  split_and!; [exact H1|exact H2| |exact H4]. intros r. rewrite <- H3. by apply rn_ext.
Qed.

Theorem C94_components (g : editdigraph) (e : editgraph) : ed_reachable g → underlying g e →
  components (ed_graph g) = components (eg_graph e).
Proof. intros Hg%ed_reachable_wf Hu. exact (twin_components _ _ (und_twin g e Hg Hu)). Qed.

Theorem C94_operations (g h : editdigraph) (e f : editgraph) : ed_reachable g → ed_reachable h → underlying g e → underlying h f →
  merge_graphs (ed_graph g) (ed_graph h) = merge_graphs (eg_graph e) (eg_graph f) ∧
  ((N.of_nat (ed_num_vertices g * ed_num_vertices h) <= 4294967296)%N →
    cartesian_product (ed_graph g) (ed_graph h) = cartesian_product (eg_graph e) (eg_graph f) ∧
    lexicographic_product (ed_graph g) (ed_graph h) = lexicographic_product (eg_graph e) (eg_graph f)) ∧
  (∀ k, eg_reachable k → (∀ v, ed_contains g v = true → (v < 4294967296)%N) →
    (∀ u v, eg_contains k u = true → ed_contains g v = true → (u + 1 + v < 4294967296)%N) →
    eg_disj_union k (ed_graph g) = eg_disj_union k (eg_graph e)).
Proof.
  intros Hg%ed_reachable_wf Hh%ed_reachable_wf Hu Hf. pose proof (und_twin g e Hg Hu) as T. pose proof (und_twin h f Hh Hf) as T'. split_and!.
  - exact (twin_merge _ _ _ _ T T').
  - intros Hsz. exact (twin_products _ _ _ _ T T' Hsz).
  - intros k Rk B1 B2. exact (twin_disj_union k _ _ T (proj1 (eg_reachable_wf k) Rk) B1 B2).
Qed.

(** ** C94: bipartiteness *)
Theorem C94_is_bipartite (g : editdigraph) : ed_reachable g →
  ∃ w, is_bipartite (ed_graph g) = Ok w ∧
  match w with
  | Bipartition L R => L ## R ∧ (∀ v, v ∈ L ∪ R ↔ ed_contains g v = true) ∧
      (∀ u v, ed_has_arc g u v = true → (u ∈ L ∧ v ∈ R) ∨ (u ∈ R ∧ v ∈ L))
  | OddCycle c => closed_walk (both g) c ∧ Nat.odd (length c) = true
  end.
Proof.
  intros Hg%ed_reachable_wf. destruct (is_bipartite_weak (sym_graph g) (sym_weak g Hg)) as (w & E & Hw). exists w. split; [rewrite <- E; by apply bip_ext|].
  destruct w as [L R|c].
  - destruct Hw as (Hd & Hc & Ha). split_and!; [done|exact Hc|]. intros u v Huv. apply Ha, sym_adj. by left.
  - destruct Hw as [[Hwk (x & y & Hx & Hy & Hyx)] Ho]. split; [|done]. split.
    + clear -Hwk. induction c as [|a [|b c] IH]; [done..|]. destruct Hwk as [Hab Hwk]. split; [by apply sym_adj|by apply IH].
    + exists x, y. split_and!; [done..|by apply sym_adj].
Qed.

Theorem C94_same_verdict (g : editdigraph) (e : editgraph) : ed_reachable g → underlying g e →
  (∃ L R, is_bipartite (ed_graph g) = Ok (Bipartition L R)) ↔ (∃ L R, is_bipartite (eg_graph e) = Ok (Bipartition L R)).
Proof.
  intros Hg Hu. destruct (C94_is_bipartite g Hg) as (w & E & Hw). destruct Hu as (Re & Ve & Ae).
  assert (∀ u v, adj (eg_graph e) u v ↔ both g u v) as Haj.
  { intros u v. unfold adj, both. cbn. by rewrite Ae, orb_true_iff. }
  rewrite (C25_iff_two_colourable (eg_graph e) (eg_graph_wf e (proj1 (eg_reachable_wf e) Re))). split.
  - intros (L & R & E2). rewrite E in E2. injection E2 as ->. destruct Hw as (Hd & _ & Hw). exists (λ v, bool_decide (v ∈ L)).
    assert (∀ x, x ∈ R → x ∉ L) as Hn by (clear -Hd; set_solver).
    assert (∀ x y, x ∈ L → y ∈ R → bool_decide (x ∈ L) ≠ bool_decide (y ∈ L)) as Hb.
    { intros x y Hx Hy. rewrite bool_decide_true, bool_decide_false; [done|by apply Hn|done]. }
    intros u v [Huv|Huv]%Haj; destruct (Hw _ _ Huv) as [[H1 H2]|[H1 H2]]; try (by apply Hb); intros Heq; symmetry in Heq; revert Heq; by apply Hb.
  - intros (f & Hf). destruct w as [L R|c]; [by exists L, R|]. destruct Hw as [Hc Ho]. exfalso.
    apply (odd_closed_walk_not_2col _ _ Hc Ho). exists f. intros u v Huv%Haj. by apply Hf.
Qed.
(** ** C94: degeneracy counts the arcs at a vertex, in both directions *)
Lemma sym_loopless g : (∀ u, ed_has_arc g u u = false) → loopless (sym_graph g).
Proof. intros Hl u [Ha|Ha]%sym_adj; by rewrite Hl in Ha. Qed.

Lemma sym_nbrs g v : ed_wf g → dvtx g v → ∃ li lo, nbrs (sym_graph g) v = li ++ lo ∧ NoDup li ∧ NoDup lo ∧
  (∀ u, u ∈ li ↔ darc g u v) ∧ (∀ u, u ∈ lo ↔ darc g v u).
Proof.
  intros Hg Hv. destruct (ed_neighbours_spec g v Hg Hv) as (li & lo & E & ?). exists li, lo. split; [|done]. unfold nbrs. cbn. by rewrite E.
Qed.

Theorem C94_degeneracy (g : editdigraph) : ed_reachable g → (∀ u, ed_has_arc g u u = false) →
  ∃ lo up order core, degeneracy (ed_graph g) = Ok (lo, up, order, core) ∧
    NoDup order ∧ (∀ v, v ∈ order ↔ ed_contains g v = true) ∧ (∀ v, is_Some (core !! v) ↔ ed_contains g v = true) ∧
    (∀ v c, core !! v = Some c → c ≤ up ∧ (∃ H, v ∈ H ∧ arc_degree g H c) ∧
      (∀ H k, v ∈ H → arc_degree g H k → (c ≤ 129 → k ≤ c) ∧ (130 ≤ c → k ≤ 127 + 2 ^ (c - 128)))) ∧
    ((∃ v, ed_contains g v = true) → ∃ v, core !! v = Some up) ∧
    (up ≤ 129 → lo = up) ∧
    (∀ v c lo li, core !! v = Some c → NoDup lo → NoDup li →
      (∀ u, u ∈ lo → ed_has_arc g v u = true ∧ before order u v) → (∀ u, u ∈ li → ed_has_arc g u v = true ∧ before order u v) →
      c ≤ 129 → length lo + length li ≤ c).
Proof.
  intros Hg%ed_reachable_wf Hl. pose proof (sym_weak g Hg) as Hww.
  destruct (degeneracy_multi (sym_graph g) (sym_multi g Hg) (sym_loopless g Hl)) as (s & Hs & HIv & Hin).
  eexists _, _, _, _. split; [exact Hs|]. split_and!.
  - rewrite reverse_Permutation. apply HIv.
  - intros v. rewrite elem_of_reverse. apply Hin.
  - intros v. rewrite (gi_core _ _ HIv). apply Hin.
  - intros v c Hc. assert (v ∈ dgn_order s) as Hv by (apply (gi_core _ _ HIv); eauto).
    apply elem_of_list_lookup in Hv as [i Hi]. split_and!; [by eapply (gi_num _ _ HIv)| |].
    + destruct (gi_lower _ _ HIv i v c Hi Hc) as (i0 & Hle & Hlow).
      exists (list_to_set (vertices (sym_graph g)) ∖ list_to_set (take i0 (dgn_order s))).
      assert (∀ w, w ∈ (list_to_set (vertices (sym_graph g)) ∖ list_to_set (take i0 (dgn_order s)) : gset N) ↔ dvtx g w ∧ w ∉ take i0 (dgn_order s)) as Hel.
      { intros w. rewrite elem_of_difference, !elem_of_list_to_set. rewrite (ww_vertices _ Hww). done. }
      split.
      * apply Hel. split; [apply Hin; by eapply elem_of_list_lookup_2|].
        intros (j & Hj & Hjl)%elem_of_take. pose proof (NoDup_lookup _ _ _ _ (gi_nodup _ _ HIv) Hi Hj). lia.
      * intros w [Hw Hwo]%Hel. split; [exact Hw|]. destruct (sym_nbrs g w Hg Hw) as (li & lo & E & Ni & No & Mi & Mo).
        exists (filter (λ u, u ∉ take i0 (dgn_order s)) lo), (filter (λ u, u ∉ take i0 (dgn_order s)) li).
        split_and!; [by apply NoDup_filter..| | |].
        -- etrans; [by apply Hlow|]. etrans; [apply calc_index_le|]. unfold rdeg. rewrite E, filter_app, app_length. lia.
        -- intros u [Hu1 Hu2%Mo]%elem_of_list_filter. split; [|exact Hu2]. apply Hel. split; [apply (darc_vtx g _ _ Hg Hu2)|done].
        -- intros u [Hu1 Hu2%Mi]%elem_of_list_filter. split; [|exact Hu2]. apply Hel. split; [apply (darc_vtx g _ _ Hg Hu2)|done].
    + intros H k HvH Hm. assert (k ≤ idx_max c) as Hk; [|unfold idx_max in Hk; case_decide; split; lia].
      assert (∃ j w, j ≤ i ∧ dgn_order s !! j = Some w ∧ w ∈ H ∧ ∀ x, x ∈ take j (dgn_order s) → x ∉ H)
        as (j & w & Hji & Hj & HwH & Hfirst).
      { clear Hm Hc. revert v Hi HvH. induction (lt_wf i) as [i _ IH]; intros v Hi HvH.
        destruct (decide (Forall (λ x, x ∉ H) (take i (dgn_order s)))) as [Hall|Hn].
        - exists i, v. rewrite Forall_forall in Hall. done.
        - apply not_Forall_Exists in Hn; [|apply _]. apply Exists_exists in Hn as (x & (j & Hj & Hjl)%elem_of_take & HxH).
          apply dec_stable in HxH. destruct (IH j Hjl x Hj HxH) as (j' & w & ? & ? & ? & ?).
          exists j', w. split_and!; [lia|done..]. }
      destruct (Hm w HwH) as (Hw & lo & li & No & Ni & Hkl & Ho & Hi').
      assert (is_Some (dgn_core s !! w)) as [cw Hcw] by (apply (gi_core _ _ HIv); by eapply elem_of_list_lookup_2).
      pose proof (gi_mono _ _ HIv j i w v cw c Hj Hi Hcw Hc Hji) as Hmono.
      pose proof (gi_upper _ _ HIv j w cw Hj Hcw) as Hup.
      assert (length lo + length li ≤ rdeg (sym_graph g) (take j (dgn_order s)) w) as Hlen.
      { destruct (sym_nbrs g w Hg Hw) as (li' & lo' & E & Ni' & No' & Mi & Mo). unfold rdeg. rewrite E, filter_app, app_length, Nat.add_comm.
        apply Nat.add_le_mono; apply submseteq_length, NoDup_submseteq; try done; intros u Hu; rewrite elem_of_list_filter.
        - destruct (Hi' u Hu) as [HuH Hua]. split; [intros Hu'; by apply (Hfirst u Hu')|by apply Mi].
        - destruct (Ho u Hu) as [HuH Hua]. split; [intros Hu'; by apply (Hfirst u Hu')|by apply Mo]. }
      pose proof (calc_index_max (rdeg (sym_graph g) (take j (dgn_order s)) w)) as Hmax.
      pose proof (idx_max_mono _ _ (Nat.le_trans _ _ _ Hup Hmono)). lia.
  - intros [v0 Hv0]. destruct (gi_num_last _ _ HIv) as [[He _]|Hx]; [|exact Hx].
    apply Hin in Hv0. rewrite He in Hv0. set_solver.
  - apply dgn_lower_small.
  - intros v c lo li Hc No Ni Ho Hi' Hle. assert (v ∈ dgn_order s) as Hv by (apply (gi_core _ _ HIv); eauto).
    pose proof (proj1 (Hin v) Hv) as Hvv. apply elem_of_list_lookup in Hv as [i Hi].
    assert (length lo + length li ≤ rdeg (sym_graph g) (take i (dgn_order s)) v) as Hlen.
    { destruct (sym_nbrs g v Hg Hvv) as (li' & lo' & E & Ni' & No' & Mi & Mo). unfold rdeg. rewrite E, filter_app, app_length, Nat.add_comm.
      apply Nat.add_le_mono; apply submseteq_length, NoDup_submseteq; try done; intros u Hu; rewrite elem_of_list_filter.
      - destruct (Hi' u Hu) as [Hua Hb]. destruct (before_reverse _ _ _ _ (gi_nodup _ _ HIv) Hi Hb) as [Hn _]. split; [exact Hn|by apply Mi].
      - destruct (Ho u Hu) as [Hua Hb]. destruct (before_reverse _ _ _ _ (gi_nodup _ _ HIv) Hi Hb) as [Hn _]. split; [exact Hn|by apply Mo]. }
    pose proof (gi_upper _ _ HIv i v c Hi Hc) as Hup.
    pose proof (calc_index_max (rdeg (sym_graph g) (take i (dgn_order s)) v)) as Hmax.
    pose proof (idx_max_mono _ _ Hup) as Hm. unfold idx_max in *. repeat case_decide; lia.
Qed.

(** The number lies between the degeneracy of the graph under [g] and twice that. *)
Theorem C94_degeneracy_underlying (g : editdigraph) (e : editgraph) lo up order core lo' up' order' core' :
  ed_reachable g → underlying g e → (∀ u, ed_has_arc g u u = false) → (∃ v, ed_contains g v = true) →
  degeneracy (ed_graph g) = Ok (lo, up, order, core) → degeneracy (eg_graph e) = Ok (lo', up', order', core') →
  (up ≤ 129 → up' ≤ up) ∧ (up' ≤ 129 → up ≤ 2 * up').
Proof.
  intros Hg (Re & Ve & Ae) Hl [v0 Hv0] E E'. pose proof (eg_graph_wf e (proj1 (eg_reachable_wf e) Re)) as Ge.
  assert (∀ u v, adj (eg_graph e) u v ↔ both g u v) as Haj.
  { intros u v. unfold adj, both. cbn. by rewrite Ae, orb_true_iff. }
  assert (loopless (eg_graph e)) as Hle. { intros u [Hu|Hu]%Haj; by rewrite Hl in Hu. }
  assert (∃ v, vtx (eg_graph e) v) as Hne. { exists v0. unfold vtx. cbn. by rewrite Ve. }
  destruct (C94_degeneracy g Hg Hl) as (lo2 & up2 & or2 & co2 & E2 & _ & _ & Hco & Hcore & Hlast & _). rewrite E in E2. injection E2 as <- <- <- <-.
  split.
  - intros Hup. destruct (C24_lower_bound _ _ _ _ _ Ge Hle E' Hne) as (_ & H & HH & Hm & _).
    apply set_choose_L in HH as [v Hv]. assert (ed_contains g v = true) as Hvv. { rewrite <- Ve. apply (Hm v Hv). }
    apply Hco in Hvv as [c Hc]. destruct (Hcore v c Hc) as (Hcu & _ & Hmax).
    destruct (Hmax H up' Hv) as [Hk _]; [|specialize (Hk ltac:(lia)); lia].
    intros w Hw. destruct (Hm w Hw) as (Hw' & l & Hnd & Hlen & Hin). split; [rewrite <- Ve; apply Hw'|].
    exists (filter (λ u, ed_has_arc g w u = true) l), (filter (λ u, ¬ ed_has_arc g w u = true) l). split_and!; [by apply NoDup_filter..| | |].
    + rewrite <- app_length. etrans; [exact Hlen|]. clear. induction l as [|x l IH]; [done|].
      rewrite !filter_cons. repeat case_decide; try tauto; cbn; rewrite app_length in *; cbn in *; lia.
    + intros u [Hu1 Hu2]%elem_of_list_filter. split; [apply (Hin u Hu2)|done].
    + intros u [Hu1 Hu2]%elem_of_list_filter. destruct (Hin u Hu2) as [Hu3 [?|?]%Haj]; done.
  - intros Hup. destruct (Hlast (ex_intro _ v0 Hv0)) as [v Hc]. destruct (Hcore v up Hc) as (_ & (H & Hv & Hm) & _).
    destruct (C24_exact_small _ _ _ _ _ Ge Hle E' Hne Hup) as (_ & _ & Hmax & _).
    assert (min_degree (eg_graph e) H (up - up `div` 2)) as Hm'.
    { intros w Hw. destruct (Hm w Hw) as (Hw' & lo3 & li3 & No & Ni & Hk & Ho & Hi). split; [unfold vtx; cbn; by rewrite Ve|].
      destruct (decide (length li3 ≤ length lo3)).
      - exists lo3. split_and!; [done| |].
        + pose proof (Nat.div_mod_eq up 2) as Hd. pose proof (Nat.mod_upper_bound up 2 ltac:(lia)) as Hd2. generalize dependent (up `div` 2). generalize dependent (up `mod` 2). intros. lia.
        + intros u Hu. destruct (Ho u Hu). split; [done|]. apply Haj. by left.
      - exists li3. split_and!; [done| |].
        + pose proof (Nat.div_mod_eq up 2) as Hd. pose proof (Nat.mod_upper_bound up 2 ltac:(lia)) as Hd2. generalize dependent (up `div` 2). generalize dependent (up `mod` 2). intros. lia.
        + intros u Hu. destruct (Hi u Hu). split; [done|]. apply Haj. by right. }
    pose proof (Hmax H _ ltac:(set_solver) Hm') as Hle'.
    pose proof (Nat.div_mod_eq up 2) as Hd. generalize dependent (up `div` 2). generalize dependent (up `mod` 2). intros. lia.
Qed.

(** ** C94: the functions that call [adjacent] *)
(** [sym_graph g] restricted to the pairs related by [a]. *)
Definition with_adj (g : editdigraph) (a : N → N → bool) : graph := {|
  num_vertices := ed_num_vertices g; num_edges := ed_num_edges g; contains := ed_contains g;
  adjacent := a; degree := ed_degree g; vertices := vertices (ed_graph g);
  neighbours := λ u, l ← ed_neighbours g u; Ok (filter (λ v, a u v = true) l) |}.
Lemma with_adj_weak g a : ed_wf g → (∀ u v, a u v = true → a v u = true ∧ both g u v) → weak_wf (with_adj g a).
Proof.
  intros Hg Ha. pose proof (sym_weak g Hg) as Hww. split; try apply Hww.
  - intros u v [_ Huv]%Ha. apply (ww_adj_vtx _ Hww u v). by apply sym_adj.
  - intros u v [Hvu _]%Ha. exact Hvu.
  - intros u Hu. destruct (ww_neighbours _ Hww u Hu) as (l & E & Hl). cbn in E |- *. rewrite E. cbn. eexists. split; [done|].
    intros v. rewrite elem_of_list_filter, Hl, sym_adj. unfold adj. cbn. split; [by intros [? _]|]. intros Hx. split; [done|by apply Ha].
Qed.

Lemma comb_before (l : list N) u v : NoDup l → (u, v) ∈ combinations2 l ↔ before l u v.
Proof.
  induction l as [|x l IH]; intros Hnd; cbn [combinations2].
  - split; [set_solver|]. intros (i & j & Hi & _). done.
  - apply NoDup_cons in Hnd as [Hx Hnd]. rewrite elem_of_app, elem_of_list_fmap, (IH Hnd). unfold before, pos. split.
    + intros [(y & [= -> ->] & (j & Hj)%elem_of_list_lookup)|(i & j & Hi & Hj & Hij)].
      * exists 0, (S j). split_and!; [done|done|lia].
      * exists (S i), (S j). split_and!; [done|done|lia].
    + intros ([|i] & [|j] & Hi & Hj & Hij); try lia; cbn in *.
      * injection Hi as ->. left. exists v. split; [done|]. by eapply elem_of_list_lookup_2.
      * right. exists i, j. split_and!; [done|done|lia].
Qed.
Lemma before_asym (l : list N) u v : NoDup l → before l u v → ¬ before l v u.
Proof.
  intros Hnd (i & j & Hi & Hj & Hij) (j' & i' & Hj' & Hi' & Hji). unfold pos in *.
  pose proof (NoDup_lookup _ _ _ _ Hnd Hi Hi'). pose proof (NoDup_lookup _ _ _ _ Hnd Hj Hj'). lia.
Qed.

(** [invert] joins two vertices if there is no arc from the one [vertices()] yields first to the other. *)
Theorem C94_invert_exact (g : editdigraph) : ed_reachable g →
  ∃ h, invert (ed_graph g) = Ok h ∧ eg_reachable h ∧ (∀ v, eg_contains h v = ed_contains g v) ∧
    ∀ u v, before (vertices (ed_graph g)) u v →
      eg_adjacent h u v = negb (ed_has_arc g u v) ∧ eg_adjacent h v u = negb (ed_has_arc g u v).
Proof.
  intros Hg%ed_reachable_wf. set (vs := vertices (ed_graph g)). assert (NoDup vs) as Hnd by apply ed_vertices_nodup.
  set (a := λ u v, (bool_decide ((u, v) ∈ combinations2 vs) && ed_has_arc g u v) || (bool_decide ((v, u) ∈ combinations2 vs) && ed_has_arc g v u)).
  assert (∀ u v, before vs u v → a u v = ed_has_arc g u v ∧ a v u = ed_has_arc g u v) as Ha.
  { intros u v Hb. pose proof (before_asym vs u v Hnd Hb) as Hnb. unfold a.
    rewrite (bool_decide_eq_true_2 ((u, v) ∈ _)) by (by apply comb_before). rewrite (bool_decide_eq_false_2 ((v, u) ∈ _)) by (by rewrite comb_before).
    cbn. rewrite orb_false_r. done. }
  destruct (invert_spec (with_adj g a)) as (h & E & Wh & Vh & Ah).
  { apply with_adj_weak; [done|]. intros u v. unfold a, both. rewrite !orb_true_iff, !andb_true_iff. tauto. }
  exists h. split_and!.
  - rewrite <- E. unfold invert. cbn [vertices with_adj ed_graph adjacent]. apply fold_res_ext_in. intros [u v] s Huv. cbn [fst snd].
    apply comb_before in Huv; [|done]. rewrite (proj1 (Ha u v Huv)). unfold ed_adjacent. by rewrite orb_diag.
  - by apply eg_reachable_wf.
  - intros v. apply eq_true_iff_eq. rewrite (Vh v). done.
  - intros u v Hb. assert (u ≠ v) as Hne. { intros ->. by apply (before_asym vs v v Hnd Hb). }
    assert (dvtx g u ∧ dvtx g v) as [Hu Hv].
    { destruct Hb as (i & j & Hi & Hj & _). split; apply (ed_vertices g _ Hg); by eapply elem_of_list_lookup_2. }
    destruct (Ha u v Hb) as [H1 H2]. split; apply eq_true_iff_eq; rewrite negb_true_iff; [etransitivity; [apply (Ah u v)|]|etransitivity; [apply (Ah v u)|]];
      unfold adj; cbn [adjacent with_adj]; rewrite ?H1, ?H2, not_true_iff_false; (split; [by intros (_ & _ & _ & ?)|intros ?; by split_and!]).
Qed.

(** [intersect] keeps an edge under the first operand if the second has the arc from the smaller to the larger end. *)
Theorem C94_intersect_exact (g h : editdigraph) : ed_reachable g → ed_reachable h →
  ∃ k, intersect_graphs (ed_graph g) (ed_graph h) = Ok k ∧ eg_reachable k ∧
    (∀ v, eg_contains k v = ed_contains g v && ed_contains h v) ∧
    ∀ u v, eg_adjacent k u v = (ed_has_arc g u v || ed_has_arc g v u) && ed_has_arc h (N.min u v) (N.max u v).
Proof.
  intros Hg%ed_reachable_wf Hh%ed_reachable_wf.
  set (a := λ u v, ed_has_arc h (N.min u v) (N.max u v)).
  assert (weak_wf (with_adj h a)) as Hw.
  { apply with_adj_weak; [done|]. intros u v. unfold a, both. rewrite (N.min_comm v u), (N.max_comm v u).
    intros Huv. split; [done|]. destruct (N.le_ge_cases u v); [rewrite N.min_l, N.max_r in Huv by done|rewrite N.min_r, N.max_l in Huv by done]; auto. }
  destruct (intersect_spec (sym_graph g) (with_adj h a) (sym_weak g Hg) Hw) as (k & E & Wk & Vk & Ak).
  exists k. split_and!.
  - rewrite <- E. unfold intersect_graphs. change (edges (sym_graph g)) with (edges (ed_graph g)).
    destruct (edges_weak (sym_graph g) (sym_weak g Hg)) as (es & Ees & Hes). change (edges (sym_graph g)) with (edges (ed_graph g)) in Ees. rewrite Ees. cbn [mbind res_bind].
    match goal with |- (eg_add_edges _ ?x ≫= _) = (eg_add_edges _ ?y ≫= _) => assert (x = y) as -> end; [|done].
    apply filter_ext_in. intros [u v] [Huv _]%Hes. cbn. unfold a, ed_adjacent. by rewrite orb_diag, N.min_l, N.max_r.
  - by apply eg_reachable_wf.
  - intros v. apply eq_true_iff_eq. rewrite andb_true_iff. apply (Vk v).
  - intros u v. apply eq_true_iff_eq. rewrite andb_true_iff, orb_true_iff. etransitivity; [apply (Ak u v)|]. rewrite sym_adj. done.
Qed.

(** What [compare_subgraph] checks in one direction. *)
Definition ordered_sub (g h : editdigraph) : Prop :=
  (∀ v, ed_contains g v = true → ed_contains h v = true) ∧ ∀ u v, (u <= v)%N → both g u v → ed_has_arc h u v = true.
Theorem C94_compare_exact (g h : editdigraph) : ed_reachable g → ed_reachable h →
  ∃ r, compare_subgraph (ed_graph g) (ed_graph h) = Ok r ∧
  match r with
  | RelEq => ordered_sub g h ∧ ordered_sub h g
  | RelSub => ordered_sub g h ∧ ¬ ordered_sub h g
  | RelSup => ¬ ordered_sub g h ∧ ordered_sub h g
  | RelIncomp => ¬ ordered_sub g h ∧ ¬ ordered_sub h g
  end.
Proof.
  intros Hg%ed_reachable_wf Hh%ed_reachable_wf.
  destruct (edges_weak (sym_graph g) (sym_weak g Hg)) as (es & E & Hes). destruct (edges_weak (sym_graph h) (sym_weak h Hh)) as (es' & E' & Hes').
  change (edges (sym_graph g)) with (edges (ed_graph g)) in E. change (edges (sym_graph h)) with (edges (ed_graph h)) in E'.
  assert (∀ a b es, ed_wf a → (∀ u v, (u, v) ∈ es ↔ (u <= v)%N ∧ adj (sym_graph a) u v) →
    forallb (contains (ed_graph b)) (vertices (ed_graph a)) && forallb (λ e : N * N, adjacent (ed_graph b) e.1 e.2) es = true ↔ ordered_sub a b) as Hsub.
  { clear. intros a b es Ha Hes. rewrite andb_true_iff, !forallb_forall. unfold ordered_sub. split.
    - intros [H1 H2]. split.
      + intros v Hv. apply H1, elem_of_list_In. by apply (ed_vertices a v Ha).
      + intros u v Huv Hb. specialize (H2 (u, v)). cbn in H2. unfold ed_adjacent in H2. rewrite orb_diag in H2. apply H2, elem_of_list_In, Hes.
        split; [done|by apply sym_adj].
    - intros [H1 H2]. split.
      + intros v Hv%elem_of_list_In. apply H1. by apply (ed_vertices a v Ha).
      + intros [u v] [Huv Hb%sym_adj]%elem_of_list_In%Hes. cbn. unfold ed_adjacent. rewrite orb_diag. by apply H2. }
  unfold compare_subgraph. rewrite E. cbn [mbind res_bind]. rewrite E'. cbn [mbind res_bind]. eexists. split; [done|].
  pose proof (Hsub g h es Hg Hes) as S1. pose proof (Hsub h g es' Hh Hes') as S2.
  destruct (forallb _ _ && forallb _ es), (forallb _ _ && forallb _ es'); rewrite <- S1, <- S2; done.
Qed.

(** ** C94: digraphs without loops and antiparallel arcs *)
Theorem C94_oriented (g : editdigraph) (e : editgraph) : ed_reachable g → underlying g e →
  (∀ u v, ed_has_arc g u v = true → ed_has_arc g v u = false) →
  ed_num_edges g = eg_num_edges e ∧ (∀ v, ed_contains g v = true → ed_degree g v = eg_degree e v ∧
    ∃ l l', neighbours (ed_graph g) v = Ok l ∧ neighbours (eg_graph e) v = Ok l' ∧ l ≡ₚ l').
Proof.
  intros Hg%ed_reachable_wf (Re & Ve & Ae) Hor. pose proof (eg_graph_wf e (proj1 (eg_reachable_wf e) Re)) as Ge.
  assert (∀ u v, adj (eg_graph e) u v ↔ both g u v) as Haj.
  { intros u v. unfold adj, both. cbn. by rewrite Ae, orb_true_iff. }
  assert (∀ u, ed_has_arc g u u = false) as Hl. { intros u. destruct (ed_has_arc g u u) eqn:E; [|done]. rewrite <- E. by apply Hor. }
  split.
  - destruct (arcs_spec g Hg) as (l & _ & Hnd & Hin & <-). destruct (wf_num_edges _ Ge) as (E & HE & Hm). cbn in Hm. rewrite Hm.
    rewrite <- (fmap_length (λ p : N * N, (N.min p.1 p.2, N.max p.1 p.2)) l). unfold size, set_size. cbn. apply Permutation_length, NoDup_Permutation.
    + apply NoDup_fmap_2_strong; [|done]. intros [a b] [c d] Hab%Hin Hcd%Hin. cbn. intros [= H1 H2].
      assert ((a = c ∧ b = d) ∨ (a = d ∧ b = c)) as [[-> ->]|[-> ->]] by lia; [done|]. apply Hor in Hab. unfold darc in Hcd. by rewrite Hab in Hcd.
    + apply NoDup_elements.
    + intros [u v]. rewrite elem_of_elements, HE, Haj, elem_of_list_fmap. split.
      * intros ([a b] & [= -> ->] & Hab%Hin). split; [lia|]. unfold both. destruct (N.le_ge_cases a b); [rewrite N.min_l, N.max_r by done; by left|rewrite N.min_r, N.max_l by done; by right].
      * intros [Hle [Ha|Ha]]; [exists (u, v)|exists (v, u)]; (split; [|by apply Hin]); cbn; f_equal; lia.
  - intros v Hv. assert (vtx (eg_graph e) v) as Hv' by (unfold vtx; cbn; by rewrite Ve).
    destruct (wf_neighbours _ Ge v Hv') as (l' & E' & Hnd' & Hin' & Hd').
    assert (adjacent (eg_graph e) v v = false) as Hvv. { cbn. by rewrite Ae, Hl. }
    rewrite Hvv in Hd'. destruct (ed_neighbours_spec g v Hg Hv) as (li & lo & E & Ni & No & Hi & Ho).
    assert (li ++ lo ≡ₚ l') as Hp.
    { apply NoDup_Permutation; [|done|].
      - apply NoDup_app. split_and!; [done| |done]. intros x Hx%Hi Hy%Ho. apply Hor in Hx. unfold darc in Hy. by rewrite Hx in Hy.
      - intros x. rewrite elem_of_app, Hi, Ho, Hin', Haj. unfold both, darc. tauto. }
    split; [|by exists (li ++ lo), l'].
    pose proof (mw_degree _ (sym_multi g Hg) v (li ++ lo) Hv E) as Hd. cbn in Hd, Hd'. rewrite Hd, Hd', Hp. lia.
Qed.
End di.

(** ** Concrete cases *)
(** Example states (not code): the digraph with the arcs [es]. *)
Definition ex_arcs `{HashIter} (es : list (N * N)) : editdigraph :=
  match ed_run ed_new ((λ e : N * N, AddEdge e.1 e.2) <$> es) with Ok (g, _) => g | _ => ed_new end.
Lemma ex_arcs_reachable `{HashIter} es : ed_reachable (ex_arcs es).
Proof.
  destruct (C16_run_total ((λ e : N * N, AddEdge e.1 e.2) <$> es)) as [g E]. unfold ex_arcs. rewrite E. by eexists _, _.
Qed.

Local Existing Instance std_iter.
(** Example state (not code): a digraph with the antiparallel pair 0-1, the arcs 1 → 2, 2 → 0, 3 → 4 and 6 → 5. *)
Definition ex_di : editdigraph := ex_arcs [(0, 1); (1, 0); (1, 2); (2, 0); (3, 4); (6, 5)]%N.
(** Example state (not code): a 4-cycle with a pendant vertex, no antiparallel arcs. *)
Definition ex_orient : editdigraph := ex_arcs [(0, 1); (2, 1); (2, 3); (3, 0); (0, 4)]%N.
(** Example state (not code): an acyclic clique on 0..3 and a vertex with a loop. *)
Definition ex_loop : editdigraph := ex_arcs [(5, 5); (0, 1); (0, 2); (0, 3); (1, 2); (1, 3); (2, 3)]%N.
(** Example states (not code): the graph under [ex_arcs es] is the graph with the edges [es]. *)
Definition ex_und (es : list (N * N)) : editgraph :=
  match merge_graphs (ed_graph (ex_arcs es)) (ed_graph (ex_arcs es)) with Ok h => h | _ => eg_new end.
Lemma ex_underlying es : underlying (ex_arcs es) (ex_und es).
Proof.
  destruct (C94_underlying (ex_arcs es) (ex_arcs_reachable es)) as (e & Hu & _ & E). unfold ex_und. by rewrite E.
Qed.

Example C94_ex_reachable : ed_reachable ex_di ∧ ed_reachable ex_orient ∧ ed_reachable ex_loop.
Proof. split_and!; apply ex_arcs_reachable. Qed.
Example C94_ex_same :
  (cs ← components (ed_graph ex_di); Ok (map elements cs)) = Ok [[3; 4]; [5; 6]; [0; 1; 2]]%N ∧
  (X ← r_neighbourhood (ed_graph ex_di) [2%N] 1; Ok (elements X)) = Ok [0; 1; 2]%N ∧
  (h ← merge_graphs (ed_graph ex_di) (ed_graph ex_orient); Ok (eg_num_vertices h, eg_num_edges h)) = Ok (7, 8).
Proof. vm_compute. split_and!; reflexivity. Qed.
Example C94_ex_is_bipartite :
  is_bipartite (ed_graph ex_di) = Ok (OddCycle [0; 2; 1]%N) ∧
  (r ← is_bipartite (ed_graph ex_orient); Ok (match r with Bipartition L R => (elements L, elements R) | _ => ([], []) end)) = Ok ([0; 2], [1; 3; 4])%N.
Proof. vm_compute. split_and!; reflexivity. Qed.
Example C94_ex_degeneracy : (∀ u, ed_has_arc ex_di u u = false) ∧
  (r ← degeneracy (ed_graph ex_di); Ok r.1) = Ok (2, 2, [1; 0; 2; 6; 5; 4; 3]%N) ∧
  (r ← degeneracy (ed_graph (ex_arcs [(0, 1); (1, 0)]%N)); Ok r.1.1) = Ok (2, 2) ∧
  (r ← degeneracy (eg_graph (ex_und [(0, 1); (1, 0)]%N)); Ok r.1.1) = Ok (1, 1).
Proof.
  split; [|vm_compute; split_and!; reflexivity]. intros u. unfold ed_has_arc. destruct (ed_out ex_di !! u) as [X|] eqn:E; [|done].
  apply bool_decide_eq_false. revert u X E. apply (map_Forall_lookup (λ u X, u ∉ X)). apply (bool_decide_unpack _). vm_compute. exact I.
Qed.
Example C94_ex_oriented : (∀ u v, ed_has_arc ex_orient u v = true → ed_has_arc ex_orient v u = false) ∧
  ed_num_edges ex_orient = 5 ∧ ed_degree ex_orient 0 = 3.
Proof.
  split; [|vm_compute; split; reflexivity]. intros u v Huv. unfold ed_has_arc in Huv. destruct (ed_out ex_orient !! u) as [X|] eqn:E; [|done].
  apply bool_decide_eq_true in Huv. revert u X E v Huv. apply (map_Forall_lookup (λ u X, ∀ v, v ∈ X → ed_has_arc ex_orient v u = false)).
  cut (map_Forall (λ u X, set_Forall (λ v, ed_has_arc ex_orient v u = false) X) (ed_out ex_orient)); [done|]. apply (bool_decide_unpack _). vm_compute. exact I.
Qed.

(** With a loop, [degeneracy] may list a vertex twice and omit another. *)
Theorem C94_degeneracy_loop_refuted : ∃ g lo up order core, ed_reachable g ∧
  degeneracy (ed_graph g) = Ok (lo, up, order, core) ∧ ¬ NoDup order ∧ ∃ v, ed_contains g v = true ∧ v ∉ order.
Proof.
  exists ex_loop. destruct (degeneracy (ed_graph ex_loop)) as [[[[lo up] order] core]| |] eqn:E; [|by vm_compute in E..].
  exists lo, up, order, core. assert ((r ← degeneracy (ed_graph ex_loop); Ok r.1.2) = Ok order) as E2 by (by rewrite E).
  vm_compute in E2. injection E2 as <-.
  split_and!; [apply ex_arcs_reachable|done| |exists 2%N; split; [by vm_compute|]]; apply (bool_decide_unpack _); vm_compute; exact I.
Qed.

(** The complement depends on the direction of the arcs and on the iteration order of the hash map. *)
Theorem C94_invert_refuted : ∃ (g : editdigraph) (e : editgraph), ed_reachable g ∧ underlying g e ∧
  invert (ed_graph g) ≠ invert (eg_graph e) ∧
  (h ← invert (@ed_graph std_iter g); Ok (eg_num_edges h)) ≠ (h ← invert (@ed_graph rev_iter g); Ok (eg_num_edges h)).
Proof.
  exists (ex_arcs [(1, 0)]%N), (ex_und [(1, 0)]%N). split_and!; [apply ex_arcs_reachable|apply ex_underlying| |by vm_compute].
  intros E. assert ((h ← invert (ed_graph (ex_arcs [(1, 0)]%N)); Ok (eg_num_edges h)) = (h ← invert (eg_graph (ex_und [(1, 0)]%N)); Ok (eg_num_edges h))) as E2 by (by rewrite E).
  by vm_compute in E2.
Qed.
(** A digraph is not a subgraph of itself, and its intersection with itself has no edges. *)
Theorem C94_self_refuted : ∃ g e, ed_reachable g ∧ underlying g e ∧ compare_subgraph (ed_graph g) (ed_graph g) = Ok RelIncomp ∧
  (h ← intersect_graphs (ed_graph g) (ed_graph g); Ok (eg_num_edges h)) = Ok 0 ∧ eg_num_edges e = 1.
Proof.
  exists (ex_arcs [(1, 0)]%N), (ex_und [(1, 0)]%N). split_and!; [apply ex_arcs_reachable|apply ex_underlying|by vm_compute..].
Qed.
(** With antiparallel arcs the degrees and the number of edges differ from those of the graph under the digraph. *)
Theorem C94_counts_refuted : ∃ g e v, ed_reachable g ∧ underlying g e ∧
  ed_num_edges g ≠ eg_num_edges e ∧ ed_degree g v ≠ eg_degree e v.
Proof.
  exists ex_di, (ex_und [(0, 1); (1, 0); (1, 2); (2, 0); (3, 4); (6, 5)]%N), 0%N. split_and!; [apply ex_arcs_reachable|apply ex_underlying|by vm_compute..].
Qed.
Example C94_ex_adjacent :
  (h ← invert (ed_graph ex_orient); Ok (vertices (ed_graph ex_orient), map (λ p : N * N, eg_adjacent h p.1 p.2) [(0, 1); (0, 2); (0, 3); (1, 2)]%N)) =
    Ok ([0; 1; 3; 2; 4]%N, [false; true; true; true]) ∧
  (h ← intersect_graphs (ed_graph ex_orient) (ed_graph ex_di); Ok (eg_adjacent h 0 1, eg_adjacent h 2 1)) = Ok (true, true) ∧
  compare_subgraph (ed_graph (ex_arcs [(0, 1)]%N)) (ed_graph ex_di) = Ok RelSub.
Proof. vm_compute. split_and!; reflexivity. Qed.

Print Assumptions C94_underlying.
Print Assumptions C94_neighbourhoods.
Print Assumptions C94_components.
Print Assumptions C94_operations.
Print Assumptions C94_is_bipartite.
Print Assumptions C94_same_verdict.
Print Assumptions C94_degeneracy.
Print Assumptions C94_degeneracy_underlying.
Print Assumptions C94_invert_exact.
Print Assumptions C94_intersect_exact.
Print Assumptions C94_compare_exact.
Print Assumptions C94_oriented.
Print Assumptions C94_degeneracy_loop_refuted.
Print Assumptions C94_invert_refuted.
Print Assumptions C94_self_refuted.
Print Assumptions C94_counts_refuted.
