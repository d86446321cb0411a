(** Property C95: linear graphs, orientations, subdivisions and files built from an EditDigraph. *)
From Verif Require Import Base Spec M_Graph M_Iterators M_EditGraph M_EditDigraph M_Algorithms M_Operations M_OrdGraph M_DegenGraph M_DTF M_IO
  S_Graph S_Multi S_Linear S_Digraph S_IO S_DTF
  P_EditGraph P_EditGraph2 P_Graph P_Iterators P_Generators P_Subdivide P_Degeneracy P_Multi P_OrdGraph P_OrdGraph2 P_DegenGraph P_DegenGraph2 P_Loops2
  P_EditDigraph P_EditDigraph2 P_Twin P_DTF P_DTF2 P_DTF3 P_DTF4 P_DTF6 T_EditGraph T_Algorithms T_EditDigraph T_IO T_DTF T_DiAlgos.

Section di.
Context `{HI : HashIter}.

(** ** Counting the neighbours *)
(** The neighbours of the vertices in [vs] that meet a condition, arcs into and out of them. *)
Lemma arc_split g (P : N → N → Prop) {dP : ∀ v u, Decision (P v u)} vs : ed_wf g → NoDup vs → (∀ v, v ∈ vs → dvtx g v) →
  ∃ A B, concat ((λ v, pair v <$> filter (P v) (nbrs (sym_graph g) v)) <$> vs) ≡ₚ A ++ B ∧ NoDup A ∧ NoDup B ∧
    (∀ v u, (v, u) ∈ A ↔ v ∈ vs ∧ P v u ∧ darc g u v) ∧ (∀ v u, (v, u) ∈ B ↔ v ∈ vs ∧ P v u ∧ darc g v u).
Proof.
  intros Hg. induction vs as [|w vs IH]; intros Hnd Hvs.
  - exists [], []. cbn. split_and!; [done|constructor|constructor|set_solver|set_solver].
  - apply NoDup_cons in Hnd as [Hw Hnd]. destruct IH as (A & B & HAB & HA & HB & MA & MB); [done|set_solver|].
    assert (dvtx g w) as Hdw by (apply Hvs; by left).
    destruct (ed_neighbours_spec g w Hg Hdw) as (li & lo & E & Ni & No & Hi & Ho).
    destruct (nbrs_weak (sym_graph g) w (sym_weak g Hg) Hdw) as [E' _]. cbn in E'. rewrite E' in E. injection E as E.
    assert (∀ l Z, NoDup l → NoDup Z → (∀ v u, (v, u) ∈ Z → v ∈ vs) → NoDup ((pair w <$> filter (P w) l) ++ Z)) as Hn.
    { intros l Z Hl HZ Hz. apply NoDup_app. split_and!; [|intros [v u] (x & [= -> ->] & _)%elem_of_list_fmap Hc; by apply Hz in Hc|done].
      apply NoDup_fmap_2; [by intros ? ? [=]|]. by apply NoDup_filter. }
    exists ((pair w <$> filter (P w) li) ++ A), ((pair w <$> filter (P w) lo) ++ B). split_and!.
    + cbn. rewrite HAB, E, filter_app, fmap_app. clear. solve_Permutation.
    + apply Hn; [done|done|]. intros v u Hv. by apply MA in Hv as [? _].
    + apply Hn; [done|done|]. intros v u Hv. by apply MB in Hv as [? _].
    + intros v u. rewrite elem_of_app, MA, elem_of_list_fmap, elem_of_cons. split.
      * intros [(x & [= -> ->] & [? ?%Hi]%elem_of_list_filter)|(? & ? & ?)]; auto.
      * intros ([->|?] & ? & ?); [left|by right]. exists u. split; [done|]. apply elem_of_list_filter. split; [done|by apply Hi].
    + intros v u. rewrite elem_of_app, MB, elem_of_list_fmap, elem_of_cons. split.
      * intros [(x & [= -> ->] & [? ?%Ho]%elem_of_list_filter)|(? & ? & ?)]; auto.
      * intros ([->|?] & ? & ?); [left|by right]. exists u. split; [done|]. apply elem_of_list_filter. split; [done|by apply Ho].
Qed.

(** Arcs that follow or oppose a strict total order, and loops. *)
Lemma arcs_count g (R : N → N → Prop) A B : ed_wf g → NoDup A → NoDup B →
  (∀ v u, (v, u) ∈ A ↔ R v u ∧ darc g u v) → (∀ v u, (v, u) ∈ B ↔ R v u ∧ darc g v u) →
  (∀ u v, R u v → ¬ R v u) → (∀ u v, dvtx g u → dvtx g v → u ≠ v → R u v ∨ R v u) →
  ∃ L : gset N, (∀ v, v ∈ L ↔ darc g v v) ∧ length A + length B + size L = ed_num_edges g.
Proof.
  intros Hg HA HB MA MB Has Htot. destruct (arcs_spec g Hg) as (l & _ & Hnd & Hin & <-).
  set (lo := (filter (λ e : N * N, e.1 = e.2) l).*1).
  assert (∀ v, v ∈ lo ↔ darc g v v) as Hlo.
  { intros v. unfold lo. rewrite elem_of_list_fmap. split.
    - intros ([a b] & -> & [Heq Hl]%elem_of_list_filter). cbn in *. subst b. by apply Hin.
    - intros Hv. exists (v, v). split; [done|]. apply elem_of_list_filter. split; [done|by apply Hin]. }
  assert (NoDup lo) as Hnl.
  { unfold lo. apply NoDup_fmap_2_strong; [|by apply NoDup_filter].
    intros [a b] [c d] [H1 _]%elem_of_list_filter [H2 _]%elem_of_list_filter. cbn in *. by intros ->; subst. }
  exists (list_to_set lo). split; [intros v; by rewrite elem_of_list_to_set|]. rewrite size_list_to_set by done.
  transitivity (length (((λ e : N * N, (e.2, e.1)) <$> A) ++ B ++ ((λ v, (v, v)) <$> lo))).
  { rewrite !app_length, !fmap_length. lia. }
  assert (∀ u, ¬ R u u) as Hir by (intros u Hu; by apply (Has u u)).
  apply Permutation_length, NoDup_Permutation; [|done|].
  - apply NoDup_app. split_and!; [apply NoDup_fmap_2; [intros [] [] [=]; by subst|done]| |].
    + intros [a b] ([c d] & [= -> ->] & [Hr _]%MA)%elem_of_list_fmap. rewrite elem_of_app, MB, elem_of_list_fmap.
      intros [[Hr' _]|(x & [= -> ->] & _)]; [by eapply Has|by eapply Hir].
    + apply NoDup_app. split_and!; [done| |apply NoDup_fmap_2; [by intros ? ? [=]|done]].
      intros [a b] [Hr _]%MB (x & [= -> ->] & _)%elem_of_list_fmap. by eapply Hir.
  - intros [u v]. rewrite !elem_of_app, !elem_of_list_fmap, Hin. split.
    + intros [([c d] & [= -> ->] & [_ ?]%MA)|[[_ ?]%MB|(x & [= -> ->] & ?%Hlo)]]; done.
    + intros Ha. destruct (darc_vtx g u v Hg Ha) as [Hu Hv]. destruct (decide (u = v)) as [->|Hne].
      * right; right. exists v. split; [done|by apply Hlo].
      * destruct (Htot u v Hu Hv Hne) as [Hr|Hr]; [right; left; by apply MB|left]. exists (v, u). split; [done|by apply MA].
Qed.

Lemma mapM_nbrs {A} G (F : N → list N → A) vs : (∀ v, v ∈ vs → neighbours G v = Ok (nbrs G v)) →
  mapM (M:=res) (λ v, Nv ← neighbours G v; Ok (F v Nv)) vs = Ok ((λ v, F v (nbrs G v)) <$> vs).
Proof.
  induction vs as [|v vs IH]; intros Hv; [done|]. cbn. rewrite Hv by (by left). cbn. rewrite IH by (intros; apply Hv; by right). done.
Qed.

(** ** C95: [edges] lists every arc once as an unordered pair, and every loop twice *)
Theorem C95_edges (g : editdigraph) : ed_reachable g →
  ∃ es A B (L : gset N), edges (ed_graph g) = Ok es ∧ es ≡ₚ A ++ B ∧ NoDup A ∧ NoDup B ∧
    (∀ u v, (u, v) ∈ A ↔ (u <= v)%N ∧ ed_has_arc g v u = true) ∧ (∀ u v, (u, v) ∈ B ↔ (u <= v)%N ∧ ed_has_arc g u v = true) ∧
    (∀ v, v ∈ L ↔ ed_has_arc g v v = true) ∧ length es = ed_num_edges g + size L.
Proof.
  intros Hg%ed_reachable_wf. set (G := sym_graph g). pose proof (sym_weak g Hg) as Hw.
  assert (∀ v, v ∈ vertices G ↔ dvtx g v) as Hvs by (intros v; apply (ww_vertices _ Hw)).
  destruct (arc_split g (λ v u, ¬ (u < v)%N) (vertices G) Hg (ww_vertices_nodup _ Hw)) as (A & B & HAB & HA & HB & MA & MB).
  { intros v. by apply Hvs. }
  assert (∀ u v, (u, v) ∈ A ↔ (u <= v)%N ∧ darc g v u) as MA'.
  { intros u v. rewrite MA, Hvs. split; [intros (_ & ? & ?); split; [lia|done]|]. intros [? Ha]. split_and!; [apply (darc_vtx g v u Hg Ha)|lia|done]. }
  assert (∀ u v, (u, v) ∈ B ↔ (u <= v)%N ∧ darc g u v) as MB'.
  { intros u v. rewrite MB, Hvs. split; [intros (_ & ? & ?); split; [lia|done]|]. intros [? Ha]. split_and!; [apply (darc_vtx g u v Hg Ha)|lia|done]. }
  assert (edges (ed_graph g) = Ok (concat ((λ v, pair v <$> filter (λ u, ¬ (u < v)%N) (nbrs G v)) <$> vertices G))) as Hes.
  { change (edges G = Ok (concat ((λ v, pair v <$> filter (λ u, ¬ (u < v)%N) (nbrs G v)) <$> vertices G))). unfold edges.
    rewrite (mapM_nbrs G (λ v Nv, pair v <$> filter (λ u, ¬ (u < v)%N) Nv)); [done|]. intros v Hv%Hvs. by apply nbrs_weak. }
  set (st := λ e : N * N, (e.1 < e.2)%N). set (lp := λ e : N * N, ¬ (e.1 < e.2)%N).
  destruct (arcs_count g (λ u v, (u < v)%N) (filter st A) (filter st B) Hg) as (L & HL & Hlen);
    [by apply NoDup_filter|by apply NoDup_filter| | |intros; lia|intros; lia|].
  { intros v u. rewrite elem_of_list_filter, MA'. unfold st. cbn. split; [tauto|]. intros [? ?]. split_and!; [done|lia|done]. }
  { intros v u. rewrite elem_of_list_filter, MB'. unfold st. cbn. split; [tauto|]. intros [? ?]. split_and!; [done|lia|done]. }
  assert (∀ Z, NoDup Z → (∀ v, (v, v) ∈ Z ↔ darc g v v) → (∀ u v, (u, v) ∈ Z → (u <= v)%N) → length (filter lp Z) = size L) as Hlp.
  { intros Z HZ Hd Hle. transitivity (length ((λ v, (v, v)) <$> elements L)); [|by rewrite fmap_length].
    apply Permutation_length, NoDup_Permutation; [by apply NoDup_filter|apply NoDup_fmap_2; [by intros ? ? [=]|apply NoDup_elements]|].
    intros [u v]. rewrite elem_of_list_filter, elem_of_list_fmap. unfold lp. cbn. split.
    - intros [Hn Hz]. pose proof (Hle u v Hz). assert (u = v) as -> by lia. exists v. split; [done|]. apply elem_of_elements, HL. by apply Hd.
    - intros (x & [= -> ->] & Hx%elem_of_elements%HL). split; [lia|by apply Hd]. }
  assert (∀ Z : list (N * N), length Z = length (filter st Z) + length (filter lp Z)) as Hsp.
  { intros Z. unfold st, lp. clear. induction Z as [|e Z IH]; [done|]. rewrite !filter_cons. destruct (decide (e.1 < e.2)%N).
    - rewrite decide_False by tauto. cbn. lia.
    - rewrite decide_True by done. cbn. lia. }
  eexists _, A, B, L. split; [exact Hes|]. split_and!; [exact HAB|exact HA|exact HB|exact MA'|exact MB'|exact HL|].
  etransitivity; [exact (Permutation_length HAB)|]. rewrite app_length, (Hsp A), (Hsp B), (Hlp A), (Hlp B); [lia|done| |intros u v; rewrite MB'; tauto|done| |intros u v; rewrite MA'; tauto].
  - intros v. rewrite MB'. split; [tauto|]. intros ?. split; [lia|done].
  - intros v. rewrite MA'. split; [tauto|]. intros ?. split; [lia|done].
Qed.

Lemma und_graph g e : ed_wf g → underlying g e → graph_wf (eg_graph e) ∧ (∀ v, vtx (eg_graph e) v ↔ vtx (sym_graph g) v) ∧
  (∀ u v, adj (eg_graph e) u v ↔ adj (sym_graph g) u v).
Proof.
  intros Hg (Re & Ve & Ae). split_and!; [by apply eg_graph_wf, eg_reachable_wf| |].
  - intros v. unfold vtx. cbn. by rewrite Ve.
  - intros u v. unfold adj. cbn. by rewrite Ae.
Qed.

(** ** C95: OrdGraph *)
Theorem C95_ordgraph (g : editdigraph) (e : editgraph) (order : list N) : ed_reachable g → underlying g e → NoDup order →
  (∀ u v, ed_has_arc g u v = true → u ∈ order ∧ v ∈ order) →
  ∃ d d', og_with_ordering (ed_graph g) order = Ok d ∧ og_with_ordering (eg_graph e) order = Ok d' ∧
    og_indices d = og_indices d' ∧ og_nodes d = og_nodes d' ∧ og_m d = ed_num_edges g ∧ og_m d' = eg_num_edges e.
Proof.
  intros Hg%ed_reachable_wf Hu Hnd Hcov. destruct (und_graph g e Hg Hu) as (Ge & Ve & Ae).
  assert (∀ u v, adj (sym_graph g) u v → u ∈ order) as Hc by (intros u v [Ha|Ha]%sym_adj; by apply Hcov in Ha as [? ?]).
  destruct (with_ordering_weak (sym_graph g) order (sym_weak g Hg) Hnd Hc) as (d & Ed & [H1 H2 H3] & Hm).
  destruct (with_ordering_weak (eg_graph e) order (graph_wf_weak _ Ge) Hnd) as (d' & Ed' & [H1' H2' H3'] & Hm').
  { intros u v Ha%Ae. by eapply Hc. }
  exists d, d'. split_and!; [exact Ed|exact Ed'| | |exact Hm|exact Hm'].
  - apply map_eq. intros u. apply option_eq. intros i. by rewrite (H1 u i), (H1' u i).
  - apply list_eq. intros i.
    assert (on_v <$> (og_nodes d !! i) = on_v <$> (og_nodes d' !! i)) as Hi by (by rewrite <- !list_lookup_fmap, H2, H2').
    destruct (og_nodes d !! i) as [[v lf rt]|] eqn:E1, (og_nodes d' !! i) as [[v' lf' rt']|] eqn:E2; cbn in Hi; [|done..].
    injection Hi as <-. destruct (H3 i _ E1) as [HL HR], (H3' i _ E2) as [HL' HR']. cbn in *. do 2 f_equal; apply set_eq; intros y.
    + by rewrite HL, HL', Ae.
    + by rewrite HR, HR', Ae.
Qed.

Lemma di_degeneracy g : ed_wf g → (∀ u, ed_has_arc g u u = false) →
  ∃ lo up order core, degeneracy (ed_graph g) = Ok (lo, up, order, core) ∧ NoDup order ∧ ∀ v, v ∈ order ↔ dvtx g v.
Proof.
  intros Hg Hl. destruct (degeneracy_multi (sym_graph g) (sym_multi g Hg)) as (s & Hd & Hi & Ho).
  { by apply sym_loopless. }
  eexists _, _, _, _. split; [exact Hd|]. split; [rewrite reverse_Permutation; apply Hi|].
  intros v. rewrite elem_of_reverse. apply Ho.
Qed.

(** By degeneracy order: total on digraphs without loops. *)
Theorem C95_ord_degeneracy (g : editdigraph) : ed_reachable g → (∀ u, ed_has_arc g u u = false) →
  ∃ lo up order core d, degeneracy (ed_graph g) = Ok (lo, up, order, core) ∧ og_by_degeneracy (ed_graph g) = Ok d ∧
    og_with_ordering (ed_graph g) order = Ok d ∧ NoDup order ∧ (∀ v, v ∈ order ↔ ed_contains g v = true).
Proof.
  intros Hr Hl. pose proof (proj1 (ed_reachable_wf g) Hr) as Hg. destruct (di_degeneracy g Hg Hl) as (lo & up & order & core & Hd & Hnd & Ho).
  destruct (C94_underlying g Hr) as (e & Hu & _). destruct (C95_ordgraph g e order Hr Hu Hnd) as (d & _ & Ed & _).
  { intros u v Ha. rewrite !Ho. apply (darc_vtx g u v Hg Ha). }
  exists lo, up, order, core, d. split_and!; [done| |done|done|done]. unfold og_by_degeneracy. rewrite Hd. exact Ed.
Qed.

(** ** C95: DTFGraph.  [orient] gives the graph under the digraph, directed along the degeneracy order of the digraph. *)
Theorem C95_orient (g : editdigraph) (e : editgraph) : ed_reachable g → underlying g e → (∀ u, ed_has_arc g u u = false) →
  ∃ lo up order core d, degeneracy (ed_graph g) = Ok (lo, up, order, core) ∧ NoDup order ∧
    df_orient (ed_graph g) = Ok d ∧ oriented (eg_graph e) d order.
Proof.
  intros Hg%ed_reachable_wf Hu Hl. destruct (und_graph g e Hg Hu) as (Ge & Ve & Ae).
  destruct (di_degeneracy g Hg Hl) as (lo & up & order & core & Hd & Hnd & Ho).
  destruct (orient_gen (sym_graph g) lo up order core (sym_weak g Hg) (sym_loopless g Hl) Hd Hnd Ho) as (d & Ed & Hwf & H1 & H2 & H3 & H4).
  exists lo, up, order, core, d. split_and!; [exact Hd|exact Hnd|exact Ed|].
  apply orient_facts; [done| |done|done|done|done| | |].
  - intros u Ha%Ae. by apply (sym_loopless g Hl u).
  - intros v. rewrite Ve. apply Ho.
  - intros v. by rewrite Ve.
  - intros i u v. by rewrite H4, Ae.
Qed.

(** ** C95: files.  Reading back what was written gives the graph under the digraph without its isolated vertices. *)
Theorem C95_file (g : editdigraph) (e : editgraph) : ed_reachable g → underlying g e → (∀ u, ed_contains g u = true → (u < u32_mod)%N) →
  ∃ t h, graph_write (ed_graph g) = Ok t ∧ eg_load t = Ok (IoOk h) ∧ eg_reachable h ∧
    (∀ u v, eg_adjacent h u v = eg_adjacent e u v) ∧
    (∀ u, eg_contains h u = true ↔ ∃ v, ed_has_arc g u v = true ∨ ed_has_arc g v u = true) ∧
    ((∀ u, ed_contains g u = true → ∃ v, ed_has_arc g u v = true ∨ ed_has_arc g v u = true) → h = e).
Proof.
  intros Hg%ed_reachable_wf Hu Hb. destruct (roundtrip_weak (sym_graph g) (sym_weak g Hg) Hb) as (t & h & Et & El & Rh & Ah & Vh).
  assert (∀ u, eg_contains h u = true ↔ ∃ v, ed_has_arc g u v = true ∨ ed_has_arc g v u = true) as Vh'.
  { intros u. rewrite Vh. cbn. setoid_rewrite orb_true_iff. done. }
  assert (∀ u v, eg_adjacent h u v = eg_adjacent e u v) as Ah'.
  { intros u v. destruct Hu as (_ & _ & Ae). by rewrite Ae, Ah. }
  exists t, h. split_and!; [exact Et|exact El|exact Rh|exact Ah'|exact Vh'|].
  intros Hiso. destruct Hu as (Re & Ve & Ae). apply eg_wf_ext; [by apply eg_reachable_wf|by apply eg_reachable_wf| |].
  - intros u. unfold ev. rewrite Ve, Vh'. split; [|apply Hiso]. intros [v [Ha|Ha]]; by apply (darc_vtx g _ _ Hg) in Ha as [? ?].
  - intros u v. unfold ea. by rewrite Ah'.
Qed.

Lemma subdivide_sym g k : subdivide (ed_graph g) k = subdivide (sym_graph g) k.
Proof.
  assert (∀ ss last v h, subdivide_edge (ed_graph g) last v ss h = subdivide_edge (sym_graph g) last v ss h) as Hs.
  { induction ss as [|s ss IH]; intros last v h; cbn; [done|]. destruct (assert_res _); cbn; [|done..].
    destruct (eg_add_edge h last s); cbn; [apply IH|done..]. }
  unfold subdivide. change (vertices (sym_graph g)) with (vertices (ed_graph g)). change (edges (sym_graph g)) with (edges (ed_graph g)).
  destruct (edges (ed_graph g)) as [es| |]; cbn [mbind res_bind]; [|done..].
  erewrite fold_res_ext_in; [done|]. intros a s _. cbn beta. by rewrite Hs.
Qed.

(** ** C95: [subdivide] makes one path for every arc, and two for every loop *)
Theorem C95_subdivide (g : editdigraph) (k : N) (es : list (N * N)) : ed_reachable g → edges (ed_graph g) = Ok es →
  (∀ v, ed_contains g v = true → (v + 1 + N.of_nat (length es) * k < 2 ^ 32)%N) →
  ∃ h b, subdivide (ed_graph g) k = Ok h ∧ eg_reachable h ∧ (∀ v, ed_contains g v = true → (v < b)%N) ∧
    (∀ x, eg_contains h x = true ↔ ed_contains g x = true ∨ (b <= x ∧ x < b + N.of_nat (length es) * k)%N) ∧
    (∀ x y, eg_adjacent h x y = true ↔ ∃ i u v, es !! i = Some (u, v) ∧
       let path := u :: range (b + N.of_nat i * k) (b + N.of_nat (S i) * k) ++ [v] in
       consec path x y ∨ consec path y x).
Proof.
  intros Hg%ed_reachable_wf Hes Hov. change (2 ^ 32)%N with 4294967296%N in Hov.
  destruct (edges_weak (sym_graph g) (sym_weak g Hg)) as (es' & Hes' & Hin). change (edges (ed_graph g) = Ok es') in Hes'.
  rewrite Hes in Hes'. injection Hes' as <-.
  destruct (subdivide_gen (sym_graph g) k es (sym_weak g Hg) Hes Hin Hov) as (h & b & Eh & Wh & Hb & HV & HE).
  exists h, b. split_and!; [|by apply eg_reachable_wf|exact Hb|exact HV|].
  - by rewrite subdivide_sym.
  - intros x y. rewrite (HE x y). unfold sub_path. split.
    + intros (i & [u v] & ? & ?). by exists i, u, v.
    + intros (i & u & v & ? & ?). by exists i, (u, v).
Qed.

(** ** C95: DegenGraph.  The stored array lists the other end of every arc, so that both ends of
    antiparallel arcs appear twice on the left; the sets of right neighbours do not repeat. *)
Theorem C95_degengraph (g : editdigraph) (order : list N) : ed_reachable g → NoDup order →
  (∀ u, u ∈ order ↔ ed_contains g u = true) → (N.of_nat (3 * length order + ed_num_edges g) <= u32_mod)%N →
  ∃ d (L : gset N), dg_with_ordering (ed_graph g) order = Ok d ∧ vertices (dg_graph d) = order ∧
    (∀ u, contains (dg_graph d) u = ed_contains g u) ∧
    (∀ u v, adjacent (dg_graph d) u v = true ↔ u ≠ v ∧ (ed_has_arc g u v = true ∨ ed_has_arc g v u = true)) ∧
    (∀ v, v ∈ L ↔ ed_has_arc g v v = true) ∧ num_edges (dg_graph d) + size L = ed_num_edges g ∧
    (∀ u, u ∈ order → ∃ l li lo R, dg_left_slice d u = Ok l ∧ dg_left_degree d u = Ok (length l) ∧ l ≡ₚ li ++ lo ∧ NoDup li ∧ NoDup lo ∧
      (∀ v, v ∈ li ↔ ed_has_arc g v u = true ∧ before order v u) ∧ (∀ v, v ∈ lo ↔ ed_has_arc g u v = true ∧ before order v u) ∧
      (∀ i j x y, l !! i = Some x → l !! j = Some y → i < j → x = y ∨ before order x y) ∧
      dg_right_neighbours d u = Ok R ∧
      (∀ v, v ∈ R ↔ (ed_has_arc g u v = true ∨ ed_has_arc g v u = true) ∧ before order u v)).
Proof.
  intros Hg%ed_reachable_wf Hnd Ho Hsz. set (G := sym_graph g). pose proof (sym_weak g Hg) as Hw.
  set (ind := og_index_map order). pose proof (og_index_map_spec order Hnd) as Hp. fold ind in Hp.
  set (rows := (λ u, (u, dg_row_of G ind u)) <$> order).
  assert (∀ u, u ∈ order → dg_row_of G ind u ≡ₚ filter (λ v, px ind v < px ind u) (nbrs G u) ∧
    (∀ i j x y, dg_row_of G ind u !! i = Some x → dg_row_of G ind u !! j = Some y → i < j → px ind x ≤ px ind y)) as Hrow.
  { intros u Hu. apply sort_pairs_weak. }
  assert (∀ u v, u ∈ order → v ∈ order → before order v u ↔ px ind v < px ind u) as Hb.
  { intros u v Hu Hv. rewrite (px_before ind order _ _ Hp). tauto. }
  assert (∀ u v, darc g u v → u ∈ order ∧ v ∈ order) as Hend.
  { intros u v Ha. rewrite !Ho. apply (darc_vtx g u v Hg Ha). }
  assert (∃ L : gset N, (∀ v, v ∈ L ↔ darc g v v) ∧ sum_list_with (λ r, length r.2) rows + size L = ed_num_edges g) as (L & HL & Hsum).
  { destruct (arc_split g (λ v u, px ind u < px ind v) (dP := λ v u, decide (px ind u < px ind v)) order Hg Hnd) as (A & B & HAB & HA & HB & MA & MB); [intros v; apply Ho|].
    destruct (arcs_count g (λ u v, px ind v < px ind u ∧ u ∈ order ∧ v ∈ order) A B Hg HA HB) as (L & HL & Hlen).
    - intros v u. rewrite MA. split; [intros (? & ? & Ha)|tauto]. pose proof (Hend _ _ Ha). tauto.
    - intros v u. rewrite MB. split; [intros (? & ? & Ha)|tauto]. pose proof (Hend _ _ Ha). tauto.
    - intros u v (? & _) (? & _). lia.
    - intros u v Hu%Ho Hv%Ho Hne. destruct (Nat.lt_total (px ind u) (px ind v)) as [?|[Heq|?]]; [by right| |by left].
      destruct Hne. by eapply (px_inj ind order).
    - exists L. split; [done|]. rewrite <- Hlen. f_equal. rewrite <- app_length, <- (Permutation_length HAB).
      unfold rows. clear -Hrow. clearbody ind. induction order as [|u l IH]; [done|]. rewrite !fmap_cons. cbn [sum_list_with concat snd]. rewrite app_length, fmap_length.
      rewrite (Permutation_length (proj1 (Hrow u ltac:(by left)))), IH; [done|]. intros x Hx. apply Hrow. by right. }
  assert (rows.*1 = order ∧ rows_weak rows ∧ ∃ d last, dg_with_ordering G order = Ok d ∧ dg_rep rows last d) as (Hro & Hok & d & last & Ed & Hrep).
  { apply (dg_with_ordering_gen G order Hw Hnd); [|intros u; apply Ho|].
    - intros u v [Ha|Ha]%sym_adj; by apply Hend in Ha as [? ?].
    - etransitivity; [|exact Hsz]. change (N.of_nat (3 * length order + sum_list_with (λ r, length r.2) rows) <= N.of_nat (3 * length order + ed_num_edges g))%N. lia. }
  assert (∀ u ns, (u, ns) ∈ rows ↔ u ∈ order ∧ ns = dg_row_of G ind u) as Hin.
  { intros u ns. unfold rows. rewrite elem_of_list_fmap. naive_solver. }
  assert (∀ u v, u ∈ order → v ∈ dg_row_of G ind u ↔ px ind v < px ind u ∧ both g u v) as Hel.
  { intros u v Hu. rewrite (proj1 (Hrow u Hu)), elem_of_list_filter. destruct (nbrs_weak G u Hw) as [_ Hn]; [by apply Ho|]. rewrite Hn. unfold G. by rewrite sym_adj. }
  assert (∀ u v, row_adj rows u v ↔ u ≠ v ∧ both g u v) as Hadj.
  { intros u v. rewrite row_adj_lt. unfold row_lt. split.
    - intros [(ns & [Hv ->]%Hin & [? Hx]%Hel)|(ns & [Hv ->]%Hin & [? Hx]%Hel)]; [|done|split; [intros ->; lia|done]|done].
      split; [intros ->; lia|]. unfold both in *. tauto.
    - intros [Hne Ha]. assert (u ∈ order ∧ v ∈ order) as [Hu Hv] by (destruct Ha as [Ha|Ha]; apply Hend in Ha; tauto).
      destruct (Nat.lt_total (px ind u) (px ind v)) as [Hlt|[Heq|Hlt]].
      + left. eexists. split; [by apply Hin|]. apply Hel; [done|]. split; [done|]. unfold both in *. tauto.
      + destruct Hne. by eapply (px_inj ind order).
      + right. eexists. split; [by apply Hin|]. by apply Hel. }
  exists d, L. split_and!; [exact Ed|rewrite <- Hro; by eapply dg_verts| | |exact HL|cbn; by rewrite (dr_m _ _ _ Hrep)|].
  - intros u. apply eq_true_iff_eq. rewrite <- Ho, <- Hro. by eapply dg_vtx.
  - intros u v. etransitivity; [exact (dg_adj rows last d Hok Hrep u v)|]. apply Hadj.
  - intros u Hu. assert ((u, dg_row_of G ind u) ∈ rows) as Hr by (by apply Hin).
    destruct (dg_left_slice_spec rows last d Hok Hrep u _ Hr) as [Hs Hd].
    destruct (dg_right_spec rows last d Hok Hrep u) as (R & HR & HRx); [by rewrite Hro|]. rewrite Hro in HRx.
    destruct (sym_nbrs g u Hg) as (li & lo & En & Ni & No & Mi & Mo); [by apply Ho|].
    exists (dg_row_of G ind u), (filter (λ v, px ind v < px ind u) li), (filter (λ v, px ind v < px ind u) lo), R.
    split_and!; [exact Hs|exact Hd| |by apply NoDup_filter|by apply NoDup_filter| | | | |].
    + etransitivity; [apply Hrow, Hu|]. unfold G. by rewrite En, filter_app.
    + intros v. rewrite elem_of_list_filter, Mi. split; intros [H1 H2].
      * split; [done|]. apply Hb; [done| |done]. by apply Hend in H2 as [? ?].
      * split; [|done]. apply Hb; [done| |done]. by apply Hend in H1 as [? ?].
    + intros v. rewrite elem_of_list_filter, Mo. split; intros [H1 H2].
      * split; [done|]. apply Hb; [done| |done]. by apply Hend in H2 as [? ?].
      * split; [|done]. apply Hb; [done| |done]. by apply Hend in H1 as [? ?].
    + intros i j x y Hi Hj Hij. pose proof (proj2 (Hrow u Hu) i j x y Hi Hj Hij) as Hle.
      assert (x ∈ order ∧ y ∈ order) as [Hx Hy].
      { apply elem_of_list_lookup_2, Hel in Hi as [_ Hi]; [|done]. apply elem_of_list_lookup_2, Hel in Hj as [_ Hj]; [|done].
        destruct Hi as [Hi|Hi], Hj as [Hj|Hj]; apply Hend in Hi, Hj; tauto. }
      destruct (decide (px ind x = px ind y)) as [Heq|Hn]; [left; by eapply (px_inj ind order)|]. right. apply Hb; [done|done|lia].
    + unfold dg_right_neighbours. by rewrite HR.
    + intros v. rewrite HRx, Hadj. unfold both. split; [tauto|]. intros [H1 H2]. split_and!; [|done|done].
      intros ->. by apply (ord_irrefl' order v Hnd).
Qed.

(** [orient_deep]: as for undirected graphs (C72), the result is an acyclic orientation of a subgraph. *)
Theorem C95_orient_deep (g : editdigraph) (e : editgraph) (dep : nat) : ed_reachable g → underlying g e → (∀ u, ed_has_arc g u u = false) →
  ∃ d order, df_orient_deep (ed_graph g) dep = Ok d ∧ NoDup order ∧ df_depth d = 1 ∧ (∀ v, df_contains d v = ed_contains g v) ∧
    (∀ u v w, harc d w u v → w = 1 ∧ eg_adjacent e u v = true ∧ before order u v) ∧
    (dep ≤ 1 → ∀ u v, eg_adjacent e u v = true → df_adjacent d u v = true) ∧
    (2 ≤ dep → ∃ d0 d1, df_orient (ed_graph g) = Ok d0 ∧ df_augment d0 dep 0 = Ok d1 ∧
      ∀ u v, eg_adjacent e u v = true → (df_adjacent d u v = true ↔ df_has_arc d1 (N.max u v) (N.min u v) = true)).
Proof.
  intros Hg%ed_reachable_wf Hu Hl. destruct (und_graph g e Hg Hu) as (Ge & Ve & Ae).
  assert (loopless (eg_graph e)) as Hle by (intros u Ha%Ae; by apply (sym_loopless g Hl u)).
  destruct (di_degeneracy g Hg Hl) as (lo & up & order & core & Hd & Hnd & Ho).
  destruct (orient_gen (sym_graph g) lo up order core (sym_weak g Hg) (sym_loopless g Hl) Hd Hnd Ho) as (d & Ed & Hwf & H1 & H2 & H3 & H4).
  destruct (edges_weak (sym_graph g) (sym_weak g Hg)) as (es & Hes & Hin).
  destruct (orient_deep_gen (ed_graph g) (eg_graph e) dep d order es Ge Hle Ed Hwf H1 H2 Hnd) as (d' & order' & Hok & Hwf' & Hd' & Hnd' & Hv & Ha & g1 & Hg1 & Hadj).
  { intros v. rewrite Ve. apply Ho. }
  { intros v. by rewrite Ve. }
  { intros i u v. by rewrite H4, Ae. }
  { exact Hes. }
  { intros u v. by rewrite Hin, Ae. }
  exists d', order'. split_and!; [exact Hok|done|done| | | |].
  - intros v. apply eq_true_iff_eq. rewrite df_contains_spec. rewrite (Hv v), Ve. done.
  - intros u v w (i & -> & (-> & ? & ?)%Ha)%harc_arc. done.
  - intros Hdle u v Huv. rewrite df_adjacent_spec, (Hadj u v Huv). by rewrite (proj2 (Nat.leb_le _ _) Hdle).
  - intros Hge. rewrite (proj2 (Nat.leb_gt dep 1)) in Hg1, Hadj by lia. apply bind_ok in Hg1 as (d0 & Hd0 & Hg1). exists d0, g1. split; [done|]. split.
    + unfold df_augment. rewrite <- Hg1. apply loop_ext. intros h. unfold df_orient_deep. by destruct (df_orient (eg_graph h)).
    + intros u v Huv. rewrite df_adjacent_spec, (Hadj u v Huv), df_has_arc_spec.
      destruct (N.le_gt_cases u v) as [Huv'|Hgt].
      * rewrite N.max_r, N.min_l by done. split; [|by left]. intros [[_ ?]|[Hle' ?]]; [done|]. assert (u = v) as -> by lia. by destruct (Hle v).
      * rewrite N.max_l, N.min_r by lia. split; [|right; split; [lia|done]]. intros [[Hle' ?]|[_ ?]]; [lia|done].
Qed.
End di.

(** * Examples *)
Local Existing Instance std_iter.
(** Example state (not code): an antiparallel pair and an arc. *)
Definition ex_anti : list (N * N) := [(0, 1); (1, 0); (2, 1)]%N.
Example C95_ex_hyps : ed_reachable ex_di ∧ underlying ex_di (ex_und [(0, 1); (1, 0); (1, 2); (2, 0); (3, 4); (6, 5)]%N) ∧
  (∀ u, ed_has_arc ex_di u u = false) ∧ (∀ u, u ∈ [1; 2; 0; 4; 3; 6; 5]%N ↔ ed_contains ex_di u = true) ∧ ed_num_edges ex_di = 6.
Proof.
  split_and!; [apply ex_arcs_reachable|apply ex_underlying|apply C94_ex_degeneracy| |by vm_compute].
  intros u. assert (list_to_set [1; 2; 0; 4; 3; 6; 5]%N = (dom (ed_out ex_di) : gset N)) as Hs by (apply (bool_decide_unpack _); vm_compute; exact I).
  rewrite <- (elem_of_list_to_set (C:=gset N)), Hs, elem_of_dom. unfold ed_contains. destruct (ed_out ex_di !! u); [split; done|].
  split; [by intros [? ?]|done].
Qed.
Example C95_ex_edges :
  edges (ed_graph ex_di) = Ok [(0, 1); (0, 2); (0, 1); (1, 2); (3, 4); (5, 6)]%N ∧
  edges (ed_graph (ex_arcs [(5, 5); (7, 5)]%N)) = Ok [(5, 7); (5, 5); (5, 5)]%N ∧ ed_num_edges (ex_arcs [(5, 5); (7, 5)]%N) = 2.
Proof. vm_compute. split_and!; reflexivity. Qed.
Example C95_ex_ordgraph :
  (d ← og_with_ordering (ed_graph ex_di) [2; 1; 0; 4; 3; 6; 5; 9]%N; Ok (og_m d, map (λ n, (on_v n, elements (on_left n), elements (on_right n))) (take 3 (og_nodes d)))) =
    Ok (6, [(2, [], [0; 1]); (1, [2], [0]); (0, [1; 2], [])]%N) ∧
  (d ← og_by_degeneracy (ed_graph ex_di); Ok (map on_v (og_nodes d))) = Ok [1; 0; 2; 6; 5; 4; 3]%N.
Proof. vm_compute. split_and!; reflexivity. Qed.
Example C95_ex_degengraph :
  (d ← dg_with_ordering (ed_graph ex_di) [1; 2; 0; 4; 3; 6; 5]%N; l ← mapM (dg_left_slice d) [1; 2; 0; 4; 3; 6; 5]%N; Ok (l, num_edges (dg_graph d))) =
    Ok ([[]; [1]; [1; 1; 2]; []; [4]; []; [6]]%N, 6) ∧
  (d ← dg_with_ordering (ed_graph ex_loop) [5; 2; 1; 3; 0]%N; l ← mapM (dg_left_slice d) [5; 2; 1; 3; 0]%N; Ok (l, num_edges (dg_graph d))) =
    Ok ([[]; []; [2]; [2; 1]; [2; 1; 3]]%N, 6) ∧ ed_num_edges ex_loop = 7.
Proof. vm_compute. split_and!; reflexivity. Qed.
Example C95_ex_orient :
  (d ← df_orient (ed_graph ex_di); mapM (df_in_neighbours d) [0; 1; 2; 3; 4; 5; 6]%N) = Ok [[1]; []; [0; 1]; [4]; []; [6]; []]%N ∧
  (d ← df_orient_deep (ed_graph ex_di) 2; mapM (df_in_neighbours d) [0; 1; 2; 3; 4; 5; 6]%N) = Ok [[1]; []; []; [4]; []; [6]; []]%N.
Proof. vm_compute. split_and!; reflexivity. Qed.
Example C95_ex_file : graph_write (ed_graph (ex_arcs ex_anti)) = Ok [48; 32; 49; 10; 48; 32; 49; 10; 49; 32; 50; 10]%N ∧
  (t ← graph_write (ed_graph ex_di); r ← eg_load t; Ok (match r with IoOk h => (eg_num_vertices h, eg_num_edges h) | _ => (0, 0) end)) = Ok (7, 5).
Proof. vm_compute. split_and!; reflexivity. Qed.
Example C95_ex_subdivide :
  (h ← subdivide (ed_graph (ex_arcs [(5, 5); (5, 6)]%N)) 2; edges (eg_graph h)) =
    Ok [(7, 8); (11, 12); (5, 7); (5, 11); (5, 9); (5, 8); (5, 10); (9, 10); (6, 12)]%N.
Proof. vm_compute. reflexivity. Qed.

(** ** Where the structures built from a digraph differ from those built from the graph under it *)
(** Antiparallel arcs are counted twice by OrdGraph; they are repeated and counted twice by DegenGraph; [subdivide] makes two paths of them. *)
Theorem C95_same_refuted : ∃ g e order, ed_reachable g ∧ underlying g e ∧ (∀ u, ed_has_arc g u u = false) ∧
  NoDup order ∧ (∀ u, u ∈ order → ed_contains g u = true) ∧
  (d ← og_with_ordering (ed_graph g) order; Ok (og_m d)) = Ok 3 ∧ (d ← og_with_ordering (eg_graph e) order; Ok (og_m d)) = Ok 2 ∧
  (d ← dg_with_ordering (ed_graph g) order; k ← dg_left_degree d 0; l ← dg_left_slice d 0; Ok (num_edges (dg_graph d), k, l)) = Ok (3, 2, [1; 1]%N) ∧
  (d ← dg_with_ordering (eg_graph e) order; k ← dg_left_degree d 0; l ← dg_left_slice d 0; Ok (num_edges (dg_graph d), k, l)) = Ok (2, 1, [1]%N) ∧
  (h ← subdivide (ed_graph g) 2; Ok (eg_num_vertices h)) = Ok 9 ∧ (h ← subdivide (eg_graph e) 2; Ok (eg_num_vertices h)) = Ok 7.
Proof.
  exists (ex_arcs ex_anti), (ex_und ex_anti), [2; 1; 0]%N.
  split_and!; [apply ex_arcs_reachable|apply ex_underlying| |apply (bool_decide_unpack _); vm_compute; exact I| |by vm_compute..].
  - intros u. unfold ed_has_arc. destruct (ed_out (ex_arcs ex_anti) !! u) as [X|] eqn:E; [|done].
    apply bool_decide_eq_false. revert u X E. apply (map_Forall_lookup (λ u X, u ∉ X)). apply (bool_decide_unpack _). vm_compute. exact I.
  - apply (Forall_forall (λ u, ed_contains (ex_arcs ex_anti) u = true)), (bool_decide_unpack _). vm_compute. exact I.
Qed.
(** With a loop the degeneracy order may repeat a vertex, and the constructions by degeneracy fail. *)
Theorem C95_loop_refuted : ∃ g, ed_reachable g ∧ og_by_degeneracy (ed_graph g) = Panic ∧ df_orient (ed_graph g) = Panic.
Proof. exists ex_loop. split_and!; [apply ex_arcs_reachable|by vm_compute|by vm_compute]. Qed.

Print Assumptions C95_edges.
Print Assumptions C95_ordgraph.
Print Assumptions C95_ord_degeneracy.
Print Assumptions C95_orient.
Print Assumptions C95_file.
Print Assumptions C95_subdivide.
Print Assumptions C95_degengraph.
Print Assumptions C95_orient_deep.
Print Assumptions C95_same_refuted.
Print Assumptions C95_loop_refuted.
