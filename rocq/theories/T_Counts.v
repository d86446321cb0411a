(** Property theorem C105: degrees and sizes (graph.rs:281-300, editgraph.rs:142-163, editdigraph.rs), of graphs, linear graphs,
    digraphs and the combined graphs of operations.rs.  [sum_list_with f l] is the sum of [f] over the list [l].
    The last part is a stronger form of C13. *)
From Verif Require Import Base Spec M_Graph M_Iterators M_EditGraph M_EditDigraph M_Algorithms M_Operations M_OrdGraph S_Graph S_Digraph S_Linear
  P_EditGraph P_EditGraph2 P_Unions P_Degeneracy P_OrdGraph P_OrdGraph2 P_DegenGraph P_Counts
  T_EditGraph T_EditDigraph T_Algorithms T_OrdGraph T_Operations Examples.

Section counts.
Context {Hi : HashIter}.

(** ** The degrees add up to twice the number of edges; a loop counts twice at its vertex *)
Theorem C105_degree_sum (G : graph) : graph_wf G → sum_list_with (degree G) (vertices G) = 2 * num_edges G.
Proof. apply handshake. Qed.

(** In a linear graph the left degrees, and likewise the right degrees, add up to the number of edges. *)
Theorem C105_degree_sum_linear (L : lgraph) : lgraph_wf L →
  ∃ ld d, (∀ u, contains L u = true → left_degree L u = Ok (ld u) ∧ degree L u = ld u + right_degree L u) ∧
    sum_list_with ld (vertices L) = num_edges L ∧ sum_list_with (right_degree L) (vertices L) = num_edges L ∧
    max_left_degree L = Ok d ∧ num_edges L ≤ num_vertices L * d ∧ num_edges L ≤ num_vertices L * max_right_degree L.
Proof.
  intros HL. pose proof (lwf_graph L HL) as Hwf. pose proof (wf_vertices_nodup _ Hwf) as HVn. pose proof (wf_vertices _ Hwf) as HV.
  set (lf := λ u, match left_neighbours L u with Ok l => l | _ => [] end).
  set (rt := λ u, filter (λ v, v ∉ lf u) (nbrs L u)).
  assert (∀ u, vtx L u → left_neighbours L u = Ok (lf u) ∧ NoDup (lf u) ∧ ∀ v, v ∈ lf u ↔ adj L u v ∧ before (vertices L) v u) as Hlf.
  { intros u Hu. destruct (lwf_left L HL u Hu) as (l & El & Hl). unfold lf. rewrite El. split; [done|].
    split; [by eapply lists_in_order_NoDup|apply Hl]. }
  assert (∀ u, vtx L u → NoDup (rt u) ∧ ∀ v, v ∈ rt u ↔ adj L u v ∧ before (vertices L) u v) as Hrt.
  { intros u Hu. destruct (nbrs_spec L u Hwf Hu) as (_ & Hnd & Hn & _). split; [by apply NoDup_filter|]. intros v. unfold rt.
    rewrite elem_of_list_filter, Hn. destruct (Hlf u Hu) as (_ & _ & Hl). rewrite Hl. split.
    - intros [Hno Ha]. split; [done|]. destruct (ord_total (vertices L) u v) as [?|?]; [by apply HV| |intros ->; by apply (lwf_loopless L HL v)|done|tauto].
      apply HV. apply (wf_adj_sym _ Hwf) in Ha. by eapply (wf_adj_vtx _ Hwf).
    - intros [Ha Hb]. split; [|done]. intros [_ Hb']. by apply (ord_irrefl _ _ _ HVn Hb). }
  assert (∀ u, vtx L u → right_degree L u = length (rt u)) as Hrd.
  { intros u Hu. destruct (lwf_right L HL u Hu) as (l & Hnd & -> & Hl). apply same_length; [done|by apply Hrt|].
    intros v. rewrite Hl. symmetry. by apply Hrt. }
  assert (∀ u, vtx L u → degree L u = length (lf u) + right_degree L u) as Hdeg.
  { intros u Hu. rewrite (Hrd u Hu), <- app_length. apply degree_is; [done|done|apply (lwf_loopless L HL)| |].
    - apply NoDup_app. split_and!; [by apply Hlf| |by apply Hrt].
      intros v [_ Hb]%(Hlf u Hu) [_ Hb']%(Hrt u Hu). by apply (ord_irrefl _ _ _ HVn Hb).
    - intros v. rewrite elem_of_app. destruct (Hlf u Hu) as (_ & _ & ->). destruct (Hrt u Hu) as (_ & ->). split; [tauto|]. intros Ha.
      destruct (ord_total (vertices L) u v) as [?|?]; [by apply HV| |intros ->; by apply (lwf_loopless L HL v)|tauto|tauto].
      apply HV. apply (wf_adj_sym _ Hwf) in Ha. by eapply (wf_adj_vtx _ Hwf). }
  assert (sum_list_with (λ u, length (lf u)) (vertices L) = sum_list_with (right_degree L) (vertices L)) as Hsame.
  { rewrite (sum_ext (right_degree L) (λ u, length (rt u))) by (intros u Hu%HV; by apply Hrd).
    rewrite <- !tag_length, <- (fmap_length (λ e : N * N, (e.2, e.1)) (tag _ rt)). apply same_length.
    - apply tag_nodup; [done|]. intros u Hu%HV. by apply Hlf.
    - apply NoDup_fmap_2; [intros [] []; cbn; congruence|]. apply tag_nodup; [done|]. intros u Hu%HV. by apply Hrt.
    - intros [u v]. rewrite elem_of_tag, elem_of_list_fmap. split.
      + intros [Hu%HV Hv]. destruct (Hlf u Hu) as (_ & _ & Hl). apply Hl in Hv as [Ha Hb]. apply (wf_adj_sym _ Hwf) in Ha.
        pose proof (wf_adj_vtx _ Hwf _ _ Ha) as Hv. exists (v, u). split; [done|]. apply elem_of_tag. split; [by apply HV|]. by apply (Hrt v Hv).
      + intros ([a b] & Hab & [Ha Hb]%elem_of_tag). cbn in Hab. injection Hab as -> ->. apply HV in Ha. apply (Hrt a Ha) in Hb as [Hab Hb].
        apply (wf_adj_sym _ Hwf) in Hab. pose proof (wf_adj_vtx _ Hwf _ _ Hab) as Hv. split; [by apply HV|]. by apply (Hlf b Hv). }
  pose proof (handshake L Hwf) as Hh. rewrite (sum_ext (degree L) (λ u, length (lf u) + right_degree L u)) in Hh by (intros u Hu%HV; by apply Hdeg).
  rewrite sum_plus in Hh. destruct (C34_degree_maps L HL) as (m & d & _ & Ed & Hd & _ & _ & _ & Hr & _).
  assert (∀ (f : N → nat) k, (∀ u, vtx L u → f u ≤ k) → sum_list_with f (vertices L) ≤ num_vertices L * k) as Hle.
  { intros f k Hk. rewrite (wf_num_vertices _ Hwf). pose proof (λ u, proj1 (HV u)) as HV1. clear -Hk HV1. induction (vertices L) as [|u l IH]; [done|].
    cbn. specialize (Hk u (HV1 u (elem_of_list_here _ _))). specialize (IH (λ x Hx, HV1 x (elem_of_list_further _ _ _ Hx))). lia. }
  exists (λ u, length (lf u)), d. split_and!.
  - intros u Hu. split; [|by apply Hdeg]. unfold left_degree. rewrite Hu. by rewrite (proj1 (Hlf u Hu)).
  - lia.
  - lia.
  - done.
  - transitivity (sum_list_with (λ u, length (lf u)) (vertices L)); [lia|]. apply Hle. intros u Hu. destruct (Hd u Hu) as (l & El & _ & ?).
    unfold lf. by rewrite El.
  - transitivity (sum_list_with (right_degree L) (vertices L)); [lia|]. apply Hle. intros u Hu. by apply Hr.
Qed.

(** A graph of degeneracy [up] has at most [up] edges per vertex, and at least those of a subgraph of minimum degree [up]. *)
Theorem C105_degeneracy_edges (G : graph) lo up order core : graph_wf G → loopless G → degeneracy G = Ok (lo, up, order, core) → up ≤ 129 →
  num_edges G ≤ num_vertices G * up ∧ up * (up + 1) ≤ 2 * num_edges G.
Proof.
  intros Hwf Hl Hd Hup. destruct (decide (vertices G = [])) as [Hv0|Hv0].
  - assert (num_edges G = 0) as E0 by (pose proof (handshake G Hwf) as Hh; rewrite Hv0 in Hh; cbn in Hh; lia). split; [lia|]. rewrite E0.
    destruct (degeneracy_inv G Hwf Hl) as (s & Hs & HIv & Hin). rewrite Hd in Hs. injection Hs as _ -> _ _.
    destruct (gi_num_last _ _ HIv) as [[_ ->]|[v Hv]]; [lia|]. exfalso. assert (vtx G v) as HvG.
    { apply Hin. apply (gi_core _ _ HIv). by eexists. }
    apply (wf_vertices _ Hwf) in HvG. rewrite Hv0 in HvG. set_solver.
  - assert (∃ v, vtx G v) as Hex.
    { destruct (vertices G) as [|v l] eqn:E; [done|]. exists v. apply (wf_vertices _ Hwf). rewrite E. set_solver. }
    destruct (C24_exact_small G lo up order core Hwf Hl Hd Hex Hup) as (_ & (H & HH & Hm) & _ & Hleft). split.
    + destruct (C23_degeneracy_order G Hwf Hl) as (lo' & up' & o' & c' & D' & Hnd & Ho & _). rewrite Hd in D'. injection D' as <- <- <- <-.
      destruct (C34_with_ordering G order Hwf Hl Hnd) as (g & Hok & Hlw & Hvs & Hnv & Hne & Hc & Ha & _).
      { intros u v Huv. apply Ho. by eapply (wf_adj_vtx _ Hwf). }
      destruct (C105_degree_sum_linear (og_lgraph g) Hlw) as (ld & d & Hld & Hs & _).
      assert (num_edges G = num_edges (og_lgraph g)) as ->.
      { destruct (wf_num_edges _ Hwf) as (E & HE & ->). destruct (wf_num_edges _ (lwf_graph _ Hlw)) as (E' & HE' & ->). f_equal. apply set_eq.
        intros [u v]. rewrite HE, HE'. change (adj (og_lgraph g) u v) with (adjacent (og_graph g) u v = true). by rewrite Ha. }
      rewrite <- Hs, (wf_num_vertices _ Hwf). assert (length (vertices G) = length (vertices (og_lgraph g))) as ->.
      { apply same_length; [apply Hwf|apply (lwf_graph _ Hlw)|]. intros x. rewrite (wf_vertices _ Hwf).
        change (vertices (og_lgraph g)) with (vertices (og_graph g)). rewrite Hvs. symmetry. apply Ho. }
      rewrite <- (sum_const up). clear Hs. pose proof (λ u, proj1 (wf_vertices _ (lwf_graph _ Hlw) u)) as HV1.
      assert (∀ u, vtx (og_lgraph g) u → ld u ≤ up) as Hb.
      { intros u Hu. destruct (Hld u Hu) as [E _]. destruct (lwf_left _ Hlw u Hu) as (l & El & Hlo). unfold left_degree in E.
        unfold vtx in Hu. rewrite Hu, El in E. cbn in E. injection E as <-. apply (Hleft u). split.
        - eapply lists_in_order_NoDup; [apply (lwf_graph _ Hlw)|exact Hlo].
        - intros w Hw. apply Hlo in Hw as [Haw Hbw]. change (vertices (og_lgraph g)) with (vertices (og_graph g)) in Hbw. rewrite Hvs in Hbw.
          split; [|done]. change (adjacent (og_graph g) u w = true) in Haw. unfold adj. by rewrite <- Ha. }
      clear -HV1 Hb. induction (vertices (og_lgraph g)) as [|u l IH]; [done|]. cbn. specialize (Hb u (HV1 u (elem_of_list_here _ _))) as Hu.
      specialize (IH (λ x Hx, HV1 x (elem_of_list_further _ _ _ Hx))). cbn in IH. lia.
    + assert (∀ u, u ∈ H → vtx G u ∧ up ≤ degree G u) as Hdg.
      { intros u Hu. destruct (Hm u Hu) as (Hv & l & Hnd & Hlen & Hin). split; [done|]. destruct (nbrs_spec G u Hwf Hv) as (_ & Hnd' & Hn & Hd').
        rewrite Hd' by apply Hl. etrans; [exact Hlen|]. apply submseteq_length, NoDup_submseteq; [done|]. intros x Hx%Hin. apply Hn. tauto. }
      assert (up + 1 ≤ size H) as Hsz.
      { apply set_choose_L in HH as [u Hu]. destruct (Hm u Hu) as (Hv & l & Hnd & Hlen & Hin).
        change (size H) with (length (elements H)). transitivity (length (u :: l)); [cbn; lia|]. apply submseteq_length, NoDup_submseteq.
        - apply NoDup_cons. split; [|done]. intros [_ Hx]%Hin. by apply (Hl u).
        - intros x [->|Hx]%elem_of_cons; [by apply elem_of_elements|]. apply elem_of_elements. by apply Hin. }
      rewrite <- (handshake G Hwf). transitivity (size H * up); [nia|].
      assert (elements H ⊆+ vertices G) as Hsub.
      { apply NoDup_submseteq; [apply NoDup_elements|]. intros x Hx%elem_of_elements. apply (wf_vertices _ Hwf). by apply Hdg. }
      apply submseteq_Permutation in Hsub as [k Hk]. rewrite (sum_perm _ _ _ Hk), sum_list_with_app.
      assert (size H * up ≤ sum_list_with (degree G) (elements H)); [|lia]. change (size H) with (length (elements H)).
      assert (∀ x, x ∈ elements H → up ≤ degree G x) as Hx by (intros x Hx%elem_of_elements; by apply Hdg). clear -Hx.
      induction (elements H) as [|x l IH]; [done|]. cbn. pose proof (Hx x (elem_of_list_here _ _)).
      specialize (IH (λ y Hy, Hx y (elem_of_list_further _ _ _ Hy))). cbn in IH. lia.
Qed.

(** In a digraph both kinds of degrees add up to the number of arcs. *)
Theorem C105_degree_sum_digraph (g : editdigraph) : ed_reachable g →
  ∃ di do_ : N → nat, (∀ u, ed_contains g u = true → ed_in_degree g u = Ok (di u) ∧ ed_out_degree g u = Ok (do_ u) ∧ ed_degree g u = di u + do_ u) ∧
    sum_list_with di (vertices (ed_graph g)) = ed_num_edges g ∧ sum_list_with do_ (vertices (ed_graph g)) = ed_num_edges g.
Proof.
  intros (os & bs & Hr). destruct (C16_queries os g bs Hr) as (_ & Hm & Hnd & HV & HC & HA & Hin & HQ). set (D := (d_run d_empty os).1) in *. clearbody D.
  set (li := λ u, match ed_in_neighbours g u with Ok l => l | _ => [] end). set (lo := λ u, match ed_out_neighbours g u with Ok l => l | _ => [] end).
  assert (∀ u, u ∈ dv D → NoDup (li u) ∧ (∀ v, v ∈ li u ↔ (v, u) ∈ da D) ∧ NoDup (lo u) ∧ (∀ v, v ∈ lo u ↔ (u, v) ∈ da D) ∧
    ed_in_degree g u = Ok (length (li u)) ∧ ed_out_degree g u = Ok (length (lo u)) ∧ ed_degree g u = length (li u) + length (lo u)) as HQ'.
  { intros u Hu. destruct (HQ u Hu) as (l1 & l2 & E1 & ? & ? & E2 & ? & ? & _ & ? & ? & ?). unfold li, lo. rewrite E1, E2. tauto. }
  clear HQ. exists (λ u, length (li u)), (λ u, length (lo u)). split_and!.
  - intros u Hu%HC. destruct (HQ' u Hu) as (_ & _ & _ & _ & ? & ? & ?). tauto.
  - rewrite Hm, <- tag_length, <- (fmap_length (λ e : N * N, (e.2, e.1))). change (size (da D)) with (length (elements (da D))). apply same_length.
    + apply NoDup_fmap_2; [intros [] []; cbn; congruence|]. apply tag_nodup; [done|]. intros u Hu%HV. by apply HQ'.
    + apply NoDup_elements.
    + intros [u v]. rewrite elem_of_elements, elem_of_list_fmap. split.
      * intros ([a b] & Hab & [Ha%HV Hb]%elem_of_tag). cbn in Hab. injection Hab as -> ->. by apply (HQ' a Ha).
      * intros Ha. exists (v, u). split; [done|]. destruct (Hin _ _ Ha) as [_ Hv]. apply elem_of_tag. split; [by apply HV|]. by apply (HQ' v Hv).
  - rewrite Hm, <- tag_length. change (size (da D)) with (length (elements (da D))). apply same_length.
    + apply tag_nodup; [done|]. intros u Hu%HV. by apply HQ'.
    + apply NoDup_elements.
    + intros [u v]. rewrite elem_of_elements, elem_of_tag. split.
      * intros [Ha%HV Hb]. by apply (HQ' u Ha).
      * intros Ha. destruct (Hin _ _ Ha) as [Hu _]. split; [by apply HV|]. by apply (HQ' u Hu).
Qed.

(** ** Complement *)
Theorem C105_invert (G : graph) : graph_wf G → loopless G →
  ∃ h, invert G = Ok h ∧ eg_num_vertices h = num_vertices G ∧
    (∀ v, contains G v = true → eg_degree h v + degree G v + 1 = num_vertices G) ∧
    2 * (eg_num_edges h + num_edges G) = num_vertices G * (num_vertices G - 1).
Proof.
  intros Hwf Hl. destruct (C27_invert G Hwf) as (h & Eh & Rh & Vh & Ah). pose proof (C10_reachable_wf h Rh) as Hh.
  assert (vertices (eg_graph h) ≡ₚ vertices G) as HP.
  { apply NoDup_Permutation; [apply Hh|apply Hwf|]. intros x. rewrite (wf_vertices _ Hh), (wf_vertices _ Hwf). apply Vh. }
  assert (num_vertices (eg_graph h) = num_vertices G) as Hn.
  { rewrite (wf_num_vertices _ Hh), (wf_num_vertices _ Hwf). by apply Permutation_length. }
  assert (∀ v, vtx G v → degree (eg_graph h) v + degree G v + 1 = num_vertices G) as Hd.
  { intros v Hv. destruct (nbrs_spec G v Hwf Hv) as (_ & Hnd & Hnb & Hd). rewrite (Hd (Hl v)). assert (vtx (eg_graph h) v) as Hv' by (by apply Vh).
    destruct (nbrs_spec (eg_graph h) v Hh Hv') as (_ & Hnd2 & Hnb2 & Hd2). rewrite Hd2.
    2: { intros Hx. apply Ah in Hx as (_ & _ & ? & _). done. }
    rewrite (wf_num_vertices _ Hwf). transitivity (length (v :: nbrs (eg_graph h) v ++ nbrs G v)); [cbn; rewrite app_length; lia|].
    apply same_length; [|apply Hwf|].
    - apply NoDup_cons. split.
      + intros [Hx%Hnb2|Hx%Hnb]%elem_of_app; [|by apply (Hl v)]. apply Ah in Hx as (_ & _ & ? & _). done.
      + apply NoDup_app. split_and!; [done| |done]. intros x Hx%Hnb2 Hx2%Hnb. apply Ah in Hx as (_ & _ & _ & Hx). unfold adj in Hx2. congruence.
    - intros x. rewrite elem_of_cons, elem_of_app, Hnb, Hnb2, (wf_vertices _ Hwf). change (adj (eg_graph h) v x) with (eg_adjacent h v x = true). rewrite Ah.
      unfold vtx, adj. split.
      + intros [->|[(_ & ? & _)|Hx]]; [done|done|]. apply (wf_adj_sym _ Hwf) in Hx. by eapply (wf_adj_vtx _ Hwf).
      + intros Hx. destruct (decide (x = v)) as [->|Hne]; [by left|]. right. destruct (adjacent G v x) eqn:E; [by right|]. left.
        split_and!; [exact Hv|done|congruence|done]. }
  exists h. split_and!; [done|done|exact Hd|]. pose proof (handshake _ Hh) as H1. pose proof (handshake _ Hwf) as H2. rewrite (sum_perm _ _ _ HP) in H1.
  assert (sum_list_with (λ v, degree (eg_graph h) v + degree G v + 1) (vertices G) = num_vertices G * num_vertices G) as H3.
  { rewrite (sum_ext _ (λ _, num_vertices G)) by (intros v Hv%(wf_vertices _ Hwf); by apply Hd). by rewrite sum_const, <- (wf_num_vertices _ Hwf). }
  rewrite !sum_plus, sum_const, H1, H2, <- (wf_num_vertices _ Hwf) in H3. change (num_edges (eg_graph h)) with (eg_num_edges h) in H3.
  rewrite Nat.mul_sub_distr_l. lia.
Qed.

(** ** Union and intersection on the same labels *)
Lemma size_incl_excl `{Countable A} (X Y U I : gset A) : (∀ x, x ∈ U ↔ x ∈ X ∨ x ∈ Y) → (∀ x, x ∈ I ↔ x ∈ X ∧ x ∈ Y) → size U + size I = size X + size Y.
Proof.
  intros HU HI. assert (U = X ∪ (Y ∖ I)) as ->.
  { apply set_eq. intros x. rewrite elem_of_union, elem_of_difference, HU, HI. destruct (decide (x ∈ X)); tauto. }
  assert (Y = (Y ∖ I) ∪ I) as HY.
  { apply set_eq. intros x. rewrite elem_of_union, elem_of_difference, HI. destruct (decide (x ∈ X)); tauto. }
  rewrite size_union by (intros x Hx Hy; apply elem_of_difference in Hy; rewrite HI in Hy; tauto).
  assert (size Y = size ((Y ∖ I) ∪ I)) as HS by (by rewrite <- HY). rewrite (size_union (Y ∖ I) I) in HS by set_solver. lia.
Qed.
Lemma vertex_set G : graph_wf G → ∃ V : gset N, (∀ x, x ∈ V ↔ vtx G x) ∧ num_vertices G = size V.
Proof.
  intros Hwf. exists (list_to_set (vertices G)). split; [intros x; by rewrite elem_of_list_to_set, (wf_vertices _ Hwf)|].
  rewrite (wf_num_vertices _ Hwf), size_list_to_set; [done|apply Hwf].
Qed.
Theorem C105_merge_intersect (G H : graph) : graph_wf G → graph_wf H →
  ∃ m i, merge_graphs G H = Ok m ∧ intersect_graphs G H = Ok i ∧
    eg_num_vertices m + eg_num_vertices i = num_vertices G + num_vertices H ∧
    eg_num_edges m + eg_num_edges i = num_edges G + num_edges H.
Proof.
  intros HG HH. destruct (C28_merge G H HG HH) as (m & Em & Rm & Vm & Am). destruct (C29_intersect G H HG HH) as (i & Ei & Ri & Vi & Ai).
  pose proof (C10_reachable_wf m Rm) as Hm. pose proof (C10_reachable_wf i Ri) as Hi'.
  exists m, i. split_and!; [done|done| |].
  - destruct (vertex_set _ Hm) as (V1 & H1 & E1). destruct (vertex_set _ Hi') as (V2 & H2 & E2). destruct (vertex_set _ HG) as (V3 & H3 & ->).
    destruct (vertex_set _ HH) as (V4 & H4 & ->). change (num_vertices (eg_graph m)) with (eg_num_vertices m) in E1.
    change (num_vertices (eg_graph i)) with (eg_num_vertices i) in E2. rewrite E1, E2. apply size_incl_excl; intros x.
    + rewrite H1, H3, H4. apply Vm.
    + rewrite H2, H3, H4. apply Vi.
  - destruct (wf_num_edges _ Hm) as (V1 & H1 & E1). destruct (wf_num_edges _ Hi') as (V2 & H2 & E2). destruct (wf_num_edges _ HG) as (V3 & H3 & ->).
    destruct (wf_num_edges _ HH) as (V4 & H4 & ->). change (num_edges (eg_graph m)) with (eg_num_edges m) in E1.
    change (num_edges (eg_graph i)) with (eg_num_edges i) in E2. rewrite E1, E2. apply size_incl_excl; intros [x y].
    + rewrite H1, H3, H4. change (adj (eg_graph m) x y) with (eg_adjacent m x y = true). rewrite Am. unfold adj. tauto.
    + rewrite H2, H3, H4. change (adj (eg_graph i) x y) with (eg_adjacent i x y = true). rewrite Ai. unfold adj. tauto.
Qed.

(** ** Products: the pairs of two isolated vertices are missing (see C31 and C32), all others are there *)
Definition isolated (G : graph) : list N := filter (λ u, degree G u = 0) (vertices G).
Lemma elem_of_isolated G u : graph_wf G → u ∈ isolated G ↔ vtx G u ∧ ¬ ∃ w, adj G u w.
Proof.
  intros Hwf. unfold isolated. rewrite elem_of_list_filter, (wf_vertices _ Hwf). split.
  - intros [Hd Hv]. split; [done|]. by apply (degree_zero G u Hwf Hv).
  - intros [Hv Hd]. split; [|done]. by apply (degree_zero G u Hwf Hv).
Qed.

Lemma product_counts (G H : graph) h (inv : gmap N (N * N)) (dg : N → N → nat) : graph_wf G → graph_wf H → eg_reachable h →
  (∀ u v, (∃ x, inv !! x = Some (u, v)) ↔ contains G u = true ∧ contains H v = true) →
  (∀ x y p, inv !! x = Some p → inv !! y = Some p → x = y) →
  (∀ x, eg_contains h x = true ↔ ∃ u v, inv !! x = Some (u, v) ∧ ((∃ w, adjacent G u w = true) ∨ (∃ w, adjacent H v w = true))) →
  (∀ x u v, inv !! x = Some (u, v) → eg_contains h x = true → degree (eg_graph h) x = dg u v) →
  (∀ u v, vtx G u → vtx H v → degree G u = 0 → degree H v = 0 → dg u v = 0) →
  eg_num_vertices h + length (isolated G) * length (isolated H) = num_vertices G * num_vertices H ∧
  2 * eg_num_edges h = sum_list_with (λ u, sum_list_with (dg u) (vertices H)) (vertices G).
Proof.
  intros HG HH Rh Hinv Hinj Vh Hdeg H0. pose proof (C10_reachable_wf h Rh) as Hh.
  assert (∀ x, vtx (eg_graph h) x → ∃ u v, inv !! x = Some (u, v) ∧ vtx G u ∧ vtx H v ∧ ¬ (u ∈ isolated G ∧ v ∈ isolated H)) as HVx.
  { intros x Hx. apply Vh in Hx as (u & v & Hx & Hn). exists u, v. split; [done|]. destruct (proj1 (Hinv u v)) as [Hu Hv]; [by exists x|].
    split_and!; [done|done|]. rewrite !elem_of_isolated by done. unfold adj. tauto. }
  assert (∀ u v, vtx G u → vtx H v → ¬ (u ∈ isolated G ∧ v ∈ isolated H) → ∃ x, inv !! x = Some (u, v) ∧ vtx (eg_graph h) x) as HVp.
  { intros u v Hu Hv Hn. destruct (proj2 (Hinv u v)) as [x Hx]; [done|]. exists x. split; [done|]. apply Vh. exists u, v. split; [done|].
    destruct (decide (degree G u = 0)) as [E1|E1]; [destruct (decide (degree H v = 0)) as [E2|E2]|].
    - exfalso. apply Hn. unfold isolated. rewrite !elem_of_list_filter, (wf_vertices _ HG), (wf_vertices _ HH). tauto.
    - right. destruct (nbrs H v) as [|w l] eqn:E.
      + exfalso. apply E2, (degree_zero H v HH Hv). intros [w Hw]. destruct (nbrs_spec H v HH Hv) as (_ & _ & Hn' & _). apply Hn' in Hw. rewrite E in Hw. set_solver.
      + exists w. apply (nbrs_spec H v HH Hv). rewrite E. set_solver.
    - left. destruct (nbrs G u) as [|w l] eqn:E.
      + exfalso. apply E1, (degree_zero G u HG Hu). intros [w Hw]. destruct (nbrs_spec G u HG Hu) as (_ & _ & Hn' & _). apply Hn' in Hw. rewrite E in Hw. set_solver.
      + exists w. apply (nbrs_spec G u HG Hu). rewrite E. set_solver. }
  set (Lp := tag (vertices G) (λ _, vertices H)). set (Z := tag (isolated G) (λ _, isolated H)).
  assert (NoDup Lp) as HLp by (apply tag_nodup; [apply HG|intros; apply HH]).
  assert (NoDup Z) as HZ by (apply tag_nodup; [apply NoDup_filter, HG|intros; apply NoDup_filter, HH]).
  assert (∀ u v, (u, v) ∈ Lp ↔ vtx G u ∧ vtx H v) as HLm.
  { intros u v. unfold Lp. by rewrite elem_of_tag, (wf_vertices _ HG), (wf_vertices _ HH). }
  split.
  - rewrite (wf_num_vertices _ HG), (wf_num_vertices _ HH). change (eg_num_vertices h) with (num_vertices (eg_graph h)).
    assert (length Z = length (isolated G) * length (isolated H)) as <- by (unfold Z; by rewrite tag_length, sum_const).
    assert (length Lp = length (vertices G) * length (vertices H)) as <- by (unfold Lp; by rewrite tag_length, sum_const).
    apply (prod_size _ inv Hh Hinj); [done|done| | |].
    + intros x (u & v & Hx & Hu & Hv & Hn)%HVx. exists (u, v). split_and!; [done|by apply HLm|]. intros Hz. by apply elem_of_tag in Hz.
    + intros [u v] [Hu Hv]%elem_of_tag. apply HLm. apply elem_of_isolated in Hu as [? _]; [|done]. apply elem_of_isolated in Hv as [? _]; done.
    + intros [u v] [Hu Hv]%HLm Hn. apply HVp; [done|done|]. intros [? ?]. apply Hn. by apply elem_of_tag.
  - etrans; [|exact (sum_tag (λ p, dg p.1 p.2) (vertices G) (λ _, vertices H))]. apply (prod_sum (eg_graph h) inv Hh Hinj); [done| |].
    + intros x Hx. destruct (HVx x Hx) as (u & v & Ex & Hu & Hv & _). exists (u, v). split_and!; [done|by apply HLm|]. by apply Hdeg.
    + intros [u v] [Hu Hv]%HLm. destruct (decide (degree G u = 0 ∧ degree H v = 0)) as [[? ?]|Hn]; [right; by apply H0|]. left. apply HVp; [done|done|].
      unfold isolated. rewrite !elem_of_list_filter. tauto.
Qed.

Theorem C105_cartesian (G H : graph) : graph_wf G → graph_wf H → loopless G → loopless H →
  (N.of_nat (num_vertices G * num_vertices H) <= 2 ^ 32)%N →
  ∃ h inv, cartesian_product G H = Ok (h, inv) ∧
    (∀ x u v, inv !! x = Some (u, v) → eg_contains h x = true → eg_degree h x = degree G u + degree H v) ∧
    eg_num_vertices h + length (isolated G) * length (isolated H) = num_vertices G * num_vertices H ∧
    eg_num_edges h = num_vertices G * num_edges H + num_edges G * num_vertices H.
Proof.
  intros HG HH LG LH Hsz. destruct (C31_cartesian_partial G H HG HH Hsz) as (h & inv & Eh & Rh & Hinv & Hinj & Vh & Ah).
  pose proof (C10_reachable_wf h Rh) as Hh.
  assert (∀ x u v, inv !! x = Some (u, v) → eg_contains h x = true → degree (eg_graph h) x = degree G u + degree H v) as Hd.
  { intros x u v Hx Hc. destruct (proj1 (Hinv u v)) as [Hu Hv]; [by exists x|].
    destruct (nbrs_spec G u HG Hu) as (_ & Hnd & Hn & Ed). destruct (nbrs_spec H v HH Hv) as (_ & Hnd' & Hn' & Ed'). rewrite (Ed (LG u)), (Ed' (LH v)).
    rewrite <- (fmap_length (λ a, (a, v)) (nbrs G u)), <- (fmap_length (λ b, (u, b)) (nbrs H v)), <- app_length.
    apply (prod_degree (eg_graph h) inv Hh Hinj); [done| | | |].
    - intros (a & b & a' & b' & E1 & E2 & Hor)%Ah. rewrite E2 in E1. injection E1 as -> ->. destruct Hor as [[_ Ha]|[_ Ha]]; [by apply (LH b)|by apply (LG a)].
    - apply NoDup_app. split_and!; [apply NoDup_fmap_2; [intros ? ?; congruence|done]| |apply NoDup_fmap_2; [intros ? ?; congruence|done]].
      intros [a b] (a' & Ea & Ha%Hn)%elem_of_list_fmap (b' & Eb & Hb%Hn')%elem_of_list_fmap. injection Ea as -> ->. injection Eb as -> ->. by apply (LG u).
    - intros y (a & b & a' & b' & E1 & E2 & Hor)%Ah. rewrite Hx in E1. injection E1 as <- <-. exists (a', b'). split; [done|]. apply elem_of_app.
      destruct Hor as [[<- Ha]|[<- Ha]]; [right|left]; apply elem_of_list_fmap; eexists; (split; [done|]); [by apply Hn'|by apply Hn].
    - intros [a b] [(a' & Ea & Ha%Hn)%elem_of_list_fmap|(b' & Eb & Hb%Hn')%elem_of_list_fmap]%elem_of_app.
      + injection Ea as -> ->. destruct (proj2 (Hinv a' v)) as [y Hy]; [split; [apply (wf_adj_sym _ HG) in Ha; by eapply (wf_adj_vtx _ HG)|done]|].
        exists y. split; [done|]. apply Ah. exists u, v, a', v. split_and!; [done|done|]. right. done.
      + injection Eb as -> ->. destruct (proj2 (Hinv u b')) as [y Hy]; [split; [done|apply (wf_adj_sym _ HH) in Hb; by eapply (wf_adj_vtx _ HH)]|].
        exists y. split; [done|]. apply Ah. exists u, v, u, b'. split_and!; [done|done|]. left. done. }
  destruct (product_counts G H h inv (λ u v, degree G u + degree H v) HG HH Rh Hinv Hinj Vh Hd) as [Hnv Hne]; [intros; lia|].
  exists h, inv. split_and!; [done|exact Hd|exact Hnv|]. pose proof (handshake G HG) as H1. pose proof (handshake H HH) as H2.
  rewrite (sum_ext _ (λ u, length (vertices H) * degree G u + sum_list_with (degree H) (vertices H))) in Hne.
  2: { intros u _. by rewrite sum_plus, sum_const. }
  rewrite sum_plus, sum_const, sum_mult, H1, H2, <- (wf_num_vertices _ HG), <- (wf_num_vertices _ HH) in Hne. lia.
Qed.

Theorem C105_lexicographic (G H : graph) : graph_wf G → graph_wf H → loopless G → loopless H →
  (N.of_nat (num_vertices G * num_vertices H) <= 2 ^ 32)%N →
  ∃ h inv, lexicographic_product G H = Ok (h, inv) ∧
    (∀ x u v, inv !! x = Some (u, v) → eg_contains h x = true → eg_degree h x = degree G u + num_vertices G * degree H v) ∧
    eg_num_vertices h + length (isolated G) * length (isolated H) = num_vertices G * num_vertices H ∧
    eg_num_edges h = num_vertices G * num_vertices G * num_edges H + num_edges G * num_vertices H.
Proof.
  intros HG HH LG LH Hsz. destruct (C32_lexicographic_partial G H HG HH Hsz) as (h & inv & Eh & Rh & Hinv & Hinj & Vh & Ah).
  pose proof (C10_reachable_wf h Rh) as Hh.
  assert (∀ x u v, inv !! x = Some (u, v) → eg_contains h x = true → degree (eg_graph h) x = degree G u + num_vertices G * degree H v) as Hd.
  { intros x u v Hx Hc. destruct (proj1 (Hinv u v)) as [Hu Hv]; [by exists x|].
    destruct (nbrs_spec G u HG Hu) as (_ & Hnd & Hn & Ed). destruct (nbrs_spec H v HH Hv) as (_ & Hnd' & Hn' & Ed'). rewrite (Ed (LG u)), (Ed' (LH v)).
    assert (length (tag (vertices G) (λ _, nbrs H v)) = num_vertices G * length (nbrs H v)) as <-
      by (by rewrite tag_length, sum_const, (wf_num_vertices _ HG)).
    rewrite <- (fmap_length (λ a, (a, v)) (nbrs G u)), <- app_length.
    apply (prod_degree (eg_graph h) inv Hh Hinj); [done| | | |].
    - intros (a & b & a' & b' & E1 & E2 & Hor)%Ah. rewrite E2 in E1. injection E1 as -> ->. destruct Hor as [Ha|[_ Ha]]; [by apply (LH b)|by apply (LG a)].
    - apply NoDup_app. split_and!; [apply NoDup_fmap_2; [intros ? ?; congruence|done]| |apply tag_nodup; [apply HG|done]].
      intros [a b] (a' & Ea & Ha%Hn)%elem_of_list_fmap [_ Hb%Hn']%elem_of_tag. injection Ea as -> ->. by apply (LH v).
    - intros y (a & b & a' & b' & E1 & E2 & Hor)%Ah. rewrite Hx in E1. injection E1 as <- <-. exists (a', b'). split; [done|]. apply elem_of_app.
      destruct Hor as [Ha|[<- Ha]]; [right|left].
      + apply elem_of_tag. split; [|by apply Hn']. apply (wf_vertices _ HG). apply (Hinv a' b'). by exists y.
      + apply elem_of_list_fmap. exists a'. split; [done|by apply Hn].
    - intros [a b] [(a' & Ea & Ha%Hn)%elem_of_list_fmap|[Ha%(wf_vertices _ HG) Hb%Hn']%elem_of_tag]%elem_of_app.
      + injection Ea as -> ->. destruct (proj2 (Hinv a' v)) as [y Hy]; [split; [apply (wf_adj_sym _ HG) in Ha; by eapply (wf_adj_vtx _ HG)|done]|].
        exists y. split; [done|]. apply Ah. exists u, v, a', v. split_and!; [done|done|]. right. done.
      + destruct (proj2 (Hinv a b)) as [y Hy]; [split; [done|apply (wf_adj_sym _ HH) in Hb; by eapply (wf_adj_vtx _ HH)]|].
        exists y. split; [done|]. apply Ah. exists u, v, a, b. split_and!; [done|done|]. left. done. }
  destruct (product_counts G H h inv (λ u v, degree G u + num_vertices G * degree H v) HG HH Rh Hinv Hinj Vh Hd) as [Hnv Hne]; [intros; lia|].
  exists h, inv. split_and!; [done|exact Hd|exact Hnv|]. pose proof (handshake G HG) as H1. pose proof (handshake H HH) as H2.
  rewrite (sum_ext _ (λ u, length (vertices H) * degree G u + num_vertices G * sum_list_with (degree H) (vertices H))) in Hne.
  2: { intros u _. by rewrite sum_plus, sum_const, sum_mult. }
  rewrite sum_plus, sum_const, sum_mult, H1, H2, <- (wf_num_vertices _ HG), <- (wf_num_vertices _ HH) in Hne. lia.
Qed.

(** ** C13 with the exact offset: one more than the largest label of the first graph, or 0 if it is empty *)
Theorem C13_disj_union_offset (g : editgraph) (G : graph) (off : N) : eg_reachable g → graph_wf G →
  (∀ u, eg_contains g u = true → (u < off)%N) → (off = 0%N ∨ ∃ u, eg_contains g u = true ∧ (u + 1 = off)%N) →
  (∀ v, contains G v = true → (v + off < 4294967296)%N) →
  ∃ h, eg_disj_union g G = Ok h ∧
    (∀ x, eg_contains h x = true ↔ eg_contains g x = true ∨ ∃ v, contains G v = true ∧ x = (v + off)%N) ∧
    (∀ x y, eg_adjacent h x y = true ↔ eg_adjacent g x y = true ∨
       ∃ u v, adjacent G u v = true ∧ x = (u + off)%N ∧ y = (v + off)%N).
Proof.
  intros Hg%eg_reachable_wf HG Hoff Hmax Hov.
  destruct (eg_disj_union_spec g G Hg HG) as (h & o & Eh & _ & Ho1 & Ho2 & Vh & Ah & _).
  { intros v Hv. specialize (Hov v Hv). lia. }
  { intros u v Hu Hv. specialize (Hov v Hv). specialize (Hoff u Hu). lia. }
  assert (∀ v, vtx G v → o = off) as Eo.
  { intros v Hv. pose proof (Ho2 off Hoff (ex_intro _ v Hv)). destruct Hmax as [->|(u & Hu & <-)]; [lia|]. specialize (Ho1 u v Hv Hu). lia. }
  exists h. split_and!; [done| |].
  - intros x. rewrite (Vh x). split; (intros [?|(v & Hv & ->)]; [by left|right; exists v; split; [done|]]); by rewrite (Eo v Hv).
  - intros x y. rewrite (Ah x y). split; (intros [?|(u & v & Hv & -> & ->)]; [by left|right; exists u, v; split; [done|]]);
      rewrite (Eo u) by (by eapply (wf_adj_vtx _ HG)); done.
Qed.
End counts.

(** ** Cases meeting the hypotheses: a triangle with a pendant edge, and two edges beside an isolated vertex *)
Local Existing Instance std_iter.
Definition C105_g : editgraph := ex_edit [(0, 1); (1, 2); (2, 0); (2, 3)]%N.
Definition C105_k : editgraph := (eg_add_vertex (ex_edit [(1, 2); (2, 3)]%N) 7).1.
Lemma ex_C105_wf : graph_wf (eg_graph C105_g) ∧ loopless (eg_graph C105_g).
Proof. split; [apply ex_edit_spec|]. intros u Hu. apply ex_edit_spec in Hu. set_solver. Qed.
Example ex_C105 :
  sum_list_with (degree (eg_graph C105_g)) (vertices (eg_graph C105_g)) = 8 ∧ num_edges (eg_graph C105_g) = 4 ∧
  match degeneracy (eg_graph C105_g) with Ok (_, up, _, _) => up = 2 | _ => False end ∧
  match invert (eg_graph C105_g) with Ok h => eg_num_edges h = 2 ∧ eg_degree h 3 = 2 | _ => False end ∧
  match merge_graphs (eg_graph C105_g) (eg_graph C105_k), intersect_graphs (eg_graph C105_g) (eg_graph C105_k) with
  | Ok m, Ok i => eg_num_vertices m = 5 ∧ eg_num_vertices i = 3 ∧ eg_num_edges m = 4 ∧ eg_num_edges i = 2 | _, _ => False end ∧
  match cartesian_product (eg_graph C105_k) (eg_graph C105_k) with
  | Ok (h, _) => eg_num_vertices h = 15 ∧ eg_num_edges h = 16 | _ => False end ∧
  match lexicographic_product (eg_graph C105_k) (eg_graph C105_g) with
  | Ok (h, _) => eg_num_vertices h = 16 ∧ eg_num_edges h = 72 | _ => False end ∧
  length (isolated (eg_graph C105_k)) = 1 ∧ length (isolated (eg_graph C105_g)) = 0 ∧
  match eg_disj_union C105_g (eg_graph C105_k) with Ok h => eg_adjacent h 5 6 = true ∧ eg_contains h 11 = true ∧ eg_contains h 10 = false | _ => False end.
Proof. vm_compute. split_and!; reflexivity. Qed.
Example ex_C105_linear : lgraph_wf (ex_lin [(0, 1); (1, 2); (2, 0); (2, 3)]%N [3; 2; 1; 0]%N) ∧
  sum_list_with (right_degree (ex_lin [(0, 1); (1, 2); (2, 0); (2, 3)]%N [3; 2; 1; 0]%N)) [3; 2; 1; 0]%N = 4.
Proof. split; [by apply ex_lin_spec|]. vm_compute. reflexivity. Qed.

Print Assumptions C105_degree_sum.
Print Assumptions C105_degree_sum_linear.
Print Assumptions C105_degeneracy_edges.
Print Assumptions C105_degree_sum_digraph.
Print Assumptions C105_invert.
Print Assumptions C105_merge_intersect.
Print Assumptions C105_cartesian.
Print Assumptions C105_lexicographic.
Print Assumptions C13_disj_union_offset.
