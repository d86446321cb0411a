(** Proofs about DegenGraph::with_ordering, OrdGraph::to_degeneracy_graph and normalize. *)
From Verif Require Import Base Spec M_Graph M_Iterators M_EditGraph M_Algorithms M_OrdGraph M_DegenGraph S_Graph S_Multi S_Linear
  P_EditGraph P_Generators P_Iterators P_Degeneracy P_Operations P_OrdGraph P_OrdGraph2 P_Packed P_DegenGraph.

Lemma fold_res_fmap {A B S} (h : A → B) (f : S → B → res S) l : ∀ s,
  fold_res f (h <$> l) s = fold_res (λ s a, f s (h a)) l s.
Proof.
  induction l as [|a l IH]; intros s; [done|]. cbn [fmap list_fmap fold_res]. destruct (f s (h a)); cbn; [apply IH|done|done].
Qed.
Lemma fold_res_ext {A S} (f f' : S → A → res S) l : (∀ s a, a ∈ l → f s a = f' s a) → ∀ s,
  fold_res f l s = fold_res f' l s.
Proof.
  induction l as [|a l IH]; intros Hf s; [done|]. cbn [fold_res]. rewrite Hf by set_solver.
  destruct (f' s a); cbn; [|done|done]. apply IH. set_solver.
Qed.

Lemma StronglySorted_lookup {A} (R : A → A → Prop) l i j x y :
  StronglySorted R l → l !! i = Some x → l !! j = Some y → i < j → R x y.
Proof.
  intros Hs. revert i j. induction Hs as [|a l Hs IH Hf]; intros i j Hi Hj Hij; [done|].
  destruct j as [|j]; [lia|]. destruct i as [|i]; cbn in Hi, Hj.
  - injection Hi as ->. rewrite Forall_forall in Hf. apply Hf. by eapply elem_of_list_lookup_2.
  - apply (IH i j); [done|done|lia].
Qed.

Lemma sort_pairs_weak ind (l : list N) :
  let l' := (merge_sort pair_le ((λ v, (px ind v, v)) <$> l)).*2 in
  l' ≡ₚ l ∧ (∀ i j x y, l' !! i = Some x → l' !! j = Some y → i < j → px ind x ≤ px ind y).
Proof.
  cbv zeta. set (ks := (λ v, (px ind v, v)) <$> l).
  pose proof (merge_sort_Permutation pair_le ks) as Hperm.
  assert (Total pair_le) as Htot by (intros p q; unfold pair_le; lia).
  assert (Transitive pair_le) as Htr by (intros p q r; unfold pair_le; lia).
  pose proof (StronglySorted_merge_sort pair_le ks) as Hss.
  set (ks' := merge_sort pair_le ks) in *. clearbody ks'.
  assert (ks'.*2 ≡ₚ l) as Hp2.
  { rewrite Hperm. unfold ks. rewrite <- list_fmap_compose. unfold compose. cbn. by rewrite list_fmap_id. }
  split; [done|]. intros i j x y Hi Hj Hlt.
  rewrite list_lookup_fmap in Hi, Hj.
  destruct (ks' !! i) as [[a x']|] eqn:Ei; [|done]. destruct (ks' !! j) as [[b y']|] eqn:Ej; [|done].
  cbn in Hi, Hj. injection Hi as ->. injection Hj as ->.
  assert (∀ k z, (k, z) ∈ ks' → k = px ind z) as Hk.
  { intros k z. rewrite Hperm. unfold ks. intros (z' & [= -> ->] & _)%elem_of_list_fmap. done. }
  assert (a = px ind x) as -> by (apply Hk; by eapply elem_of_list_lookup_2).
  assert (b = px ind y) as -> by (apply Hk; by eapply elem_of_list_lookup_2).
  pose proof (StronglySorted_lookup _ _ _ _ _ _ Hss Ei Ej Hlt) as Hle.
  unfold pair_le in Hle. cbn in Hle. lia.
Qed.
Lemma sort_pairs_spec ind order l : pos_map ind order → NoDup l → (∀ x, x ∈ l → x ∈ order) →
  let l' := (merge_sort pair_le ((λ v, (px ind v, v)) <$> l)).*2 in
  l' ≡ₚ l ∧ (∀ i j x y, l' !! i = Some x → l' !! j = Some y → i < j → before order x y).
Proof.
  intros Hp Hnd Hl. cbv zeta. destruct (sort_pairs_weak ind l) as [Hp2 Hs].
  split; [exact Hp2|]. intros i j x y Hi Hj Hlt.
  assert (x ∈ l ∧ y ∈ l) as [Hx Hy].
  { rewrite <- Hp2. split; by eapply elem_of_list_lookup_2. }
  assert (x ≠ y) as Hxy.
  { intros <-. assert (i = j); [|lia]. eapply NoDup_lookup; [|exact Hi|exact Hj]. by rewrite Hp2. }
  apply (px_before ind order _ _ Hp). split_and!; [by apply Hl|by apply Hl|].
  pose proof (Hs _ _ _ _ Hi Hj Hlt).
  assert (px ind x ≠ px ind y) by (intros Heq; apply Hxy; eapply px_inj; eauto). lia.
Qed.

(** ** with_ordering *)
(** Rows obtained from a graph, an order and a list of left neighbours for each vertex. *)
Lemma rows_of_graph G order (L : N → list N) : graph_wf G → loopless G → NoDup order →
  (∀ u v, adj G u v → u ∈ order) →
  (∀ u, u ∈ order → lists_in_order order (λ v, adj G u v ∧ before order v u) (L u)) →
  let rows := (λ u, (u, L u)) <$> order in
  rows.*1 = order ∧ rows_ok rows ∧ (∀ u v, row_adj rows u v ↔ adj G u v) ∧
  sum_list_with (λ r, length r.2) rows = num_edges G.
Proof.
  intros Hwf Hl Hnd Hcov HL. cbv zeta. set (rows := (λ u, (u, L u)) <$> order).
  assert (rows.*1 = order) as Ho.
  { unfold rows. rewrite <- list_fmap_compose. unfold compose. cbn. by rewrite list_fmap_id. }
  assert (∀ u ns, (u, ns) ∈ rows ↔ u ∈ order ∧ ns = L u) as Hin.
  { intros u ns. unfold rows. rewrite elem_of_list_fmap. naive_solver. }
  assert (rows_ok rows) as Hok.
  { apply rows_ok_intro; rewrite Ho; [done| |].
    - intros u ns [Hu ->]%Hin v Hv. by apply (HL u Hu).
    - intros u ns [Hu ->]%Hin i j x y. by apply (HL u Hu). }
  assert (∀ u v, row_adj rows u v ↔ adj G u v) as Hadj.
  { intros u v. rewrite row_adj_lt. unfold row_lt. split.
    - intros [(ns & [Hv ->]%Hin & Hx)|(ns & [Hv ->]%Hin & Hx)]; apply (HL _ Hv) in Hx as [Hx _]; [|done].
      by apply (wf_adj_sym _ Hwf).
    - intros Huv. assert (u ∈ order) as Hu by (by eapply Hcov).
      pose proof (wf_adj_sym _ Hwf _ _ Huv) as Hvu. assert (v ∈ order) as Hv by (by eapply Hcov).
      destruct (ord_total order u v) as [Hb|Hb]; [done|done|intros ->; by apply Hl in Huv| |].
      + left. exists (L v). split; [by apply Hin|]. by apply (HL v Hv).
      + right. exists (L u). split; [by apply Hin|]. by apply (HL u Hu). }
  split_and!; [done|done|done|].
  destruct (rows_edge_set rows Hok) as (E & HE & <-). destruct (wf_num_edges _ Hwf) as (E' & HE' & ->). f_equal.
  apply set_eq. intros [u v]. by rewrite HE, HE', Hadj.
Qed.

Definition dg_words (G : graph) (order : list N) : nat := 3 * length order + num_edges G.

Lemma rows_words (rows : list (N * list N)) :
  roff rows (length rows) = 3 * length rows + sum_list_with (λ r, length r.2) rows.
Proof. rewrite roff_total. induction rows as [|r rows IH]; [done|]. cbn. cbn in IH. lia. Qed.

Definition dg_exact (G : graph) (order : list N) (g : degengraph) : Prop :=
  ∃ rows last, rows.*1 = order ∧ rows_ok rows ∧ dg_rep rows last g ∧ ∀ u v, row_adj rows u v ↔ adj G u v.

(** The row of [u] that [with_ordering] appends. *)
Definition dg_row_of (G : graph) (ind : gmap N nat) (u : N) : list N :=
  (merge_sort pair_le ((λ v, (px ind v, v)) <$> filter (λ v, px ind v < px ind u) (nbrs G u))).*2.

Lemma dg_with_ordering_gen G order : weak_wf G → NoDup order →
  (∀ u v, adj G u v → u ∈ order) → (∀ u, u ∈ order → vtx G u) →
  let rows := (λ u, (u, dg_row_of G (og_index_map order) u)) <$> order in
  (N.of_nat (3 * length order + sum_list_with (λ r, length r.2) rows) <= u32_mod)%N →
  rows.*1 = order ∧ rows_weak rows ∧
  ∃ g last, dg_with_ordering G order = Ok g ∧ dg_rep rows last g.
Proof.
  intros Hwf Hnd Hcov Hsub. unfold dg_with_ordering. set (ind := og_index_map order).
  assert (pos_map ind order) as Hp by (by apply og_index_map_spec). clearbody ind. cbv zeta.
  set (rows := (λ u, (u, dg_row_of G ind u)) <$> order). intros Hsz.
  assert (rows.*1 = order) as Ho.
  { unfold rows. rewrite <- list_fmap_compose. unfold compose. cbn. by rewrite list_fmap_id. }
  assert (rows_weak rows) as Hok.
  { split; rewrite Ho; [done|]. intros u ns (u' & Hu & Hu')%elem_of_list_fmap v Hv. injection Hu as -> ->.
    unfold dg_row_of in Hv. rewrite (proj1 (sort_pairs_weak ind _)), elem_of_list_filter in Hv. destruct Hv as [Hlt Hv].
    destruct (nbrs_weak G _ Hwf (Hsub _ Hu')) as (_ & Hin). apply Hin in Hv.
    apply (px_before ind order _ _ Hp). split_and!; [by eapply Hcov, (ww_adj_sym _ Hwf)|done|done]. }
  split; [done|]. split; [done|].
  destruct (db_appends rows Hok) as (b & Hb & Hrep).
  { rewrite rows_words. unfold rows at 1. rewrite fmap_length. exact Hsz. }
  erewrite fold_res_ext.
  - unfold rows in Hb. rewrite fold_res_fmap in Hb. cbn [fst snd] in Hb. rewrite Hb. cbn [mbind res_bind].
    eexists _, _; split; [done|exact Hrep].
  - intros b' u Hu. cbn beta. destruct (px_lookup _ _ _ Hp Hu) as [-> _]. cbn [unwrap mbind res_bind].
    destruct (nbrs_weak G u Hwf (Hsub u Hu)) as (-> & Hin). cbn [mbind res_bind].
    assert (∀ l acc, (∀ x, x ∈ l → x ∈ order) →
      fold_res (λ L0 v, iv ← unwrap (ind !! v); Ok (if iv <? px ind u then L0 ++ [(iv, v)] else L0)) l acc =
      Ok (acc ++ ((λ v, (px ind v, v)) <$> filter (λ v, px ind v < px ind u) l))) as Hf.
    { induction l as [|x l IH]; intros acc Hx; cbn [fold_res]; [by rewrite app_nil_r|].
      destruct (px_lookup ind order x Hp) as [-> _]; [apply Hx; set_solver|]. cbn [unwrap mbind res_bind].
      rewrite IH by set_solver. f_equal. rewrite filter_cons. destruct (Nat.ltb_spec (px ind x) (px ind u)).
      - rewrite decide_True by done. cbn. by rewrite <- app_assoc.
      - rewrite decide_False by lia. done. }
    rewrite Hf; [|intros x; rewrite Hin; intros Hx; by eapply Hcov, (ww_adj_sym _ Hwf)]. cbn [mbind res_bind app]. reflexivity.
Qed.

(** Loops are not kept: [G0] is [G] without its loops. *)
Lemma dg_with_ordering_loops G G0 order : graph_wf G → graph_wf G0 →
  (∀ u v, adj G0 u v ↔ adj G u v ∧ u ≠ v) → NoDup order →
  (∀ u v, adj G u v → u ∈ order) → (∀ u, u ∈ order → vtx G u) →
  (N.of_nat (dg_words G0 order) <= u32_mod)%N →
  ∃ g, dg_with_ordering G order = Ok g ∧ dg_exact G0 order g.
Proof.
  intros Hwf Hwf0 Hadj0 Hnd Hcov Hsub Hsz.
  pose proof (og_index_map_spec order Hnd) as Hp.
  assert (∀ u, u ∈ order → lists_in_order order (λ v, adj G0 u v ∧ before order v u) (dg_row_of G (og_index_map order) u)) as HL.
  { intros u Hu. destruct (nbrs_spec G u Hwf (Hsub u Hu)) as (_ & Hnn & Hin & _).
    set (ind := og_index_map order) in *. clearbody ind. unfold dg_row_of.
    destruct (sort_pairs_spec ind order (filter (λ v, px ind v < px ind u) (nbrs G u)) Hp) as [Hperm Hs].
    - by apply NoDup_filter.
    - intros x. rewrite elem_of_list_filter, Hin. intros [_ Hx]. by eapply Hcov, (wf_adj_sym _ Hwf).
    - split; [|done]. intros x. rewrite Hperm, elem_of_list_filter, Hin, (px_before ind order _ _ Hp), Hadj0.
      split; [|tauto]. intros [? Hx]. split_and!; [done| |by eapply Hcov, (wf_adj_sym _ Hwf)|done|done].
      intros ->. lia. }
  assert (loopless G0) as Hl0 by (intros u [_ Hu]%Hadj0; done).
  assert (∀ u v, adj G0 u v → u ∈ order) as Hcov0 by (intros u v [? _]%Hadj0; by eapply Hcov).
  destruct (rows_of_graph G0 order _ Hwf0 Hl0 Hnd Hcov0 HL) as (Ho & Hok & Hadj & Hm).
  destruct (dg_with_ordering_gen G order (graph_wf_weak G Hwf) Hnd Hcov Hsub) as (_ & _ & g & last & Hg & Hrep).
  { rewrite Hm. exact Hsz. }
  exists g. split; [done|]. eexists _, last. split_and!; [exact Ho|exact Hok|exact Hrep|exact Hadj].
Qed.
Lemma dg_with_ordering_spec G order : graph_wf G → loopless G → NoDup order →
  (∀ u v, adj G u v → u ∈ order) → (∀ u, u ∈ order → vtx G u) →
  (N.of_nat (dg_words G order) <= u32_mod)%N →
  ∃ g, dg_with_ordering G order = Ok g ∧ dg_exact G order g.
Proof.
  intros Hwf Hl. apply dg_with_ordering_loops; [done|done|]. intros u v. split; [|tauto].
  intros Ha. split; [done|]. intros ->. by apply Hl in Ha.
Qed.

Section with_iter.
Context `{HI : HashIter}.

(** ** Conversion of an OrdGraph *)
Lemma to_degeneracy_spec G order og : graph_wf G → loopless G → og_exact G order og →
  (N.of_nat (dg_words G order) <= u32_mod)%N →
  ∃ g, og_to_degeneracy_graph og = Ok g ∧ dg_exact G order g.
Proof.
  intros Hwf Hl Hex Hsz. unfold og_to_degeneracy_graph. rewrite (og_verts G order og Hex).
  set (L := λ u, match og_left_neighbours og u with Ok l => l | _ => [] end).
  assert (∀ u, u ∈ order → og_left_neighbours og u = Ok (L u) ∧ lists_in_order order (λ v, adj G u v ∧ before order v u) (L u)) as HL.
  { intros u Hu. destruct (og_left_spec G order og Hex u Hu) as (l & Hl' & Hlo). unfold L. by rewrite Hl'. }
  assert (NoDup order) as Hnd by (by eapply oe_nd).
  destruct (rows_of_graph G order L Hwf Hl Hnd) as (Ho & Hok & Hadj & Hm).
  { apply (oe_cover _ _ _ Hex). }
  { intros u Hu. by apply HL. }
  set (rows := (λ u, (u, L u)) <$> order) in *.
  destruct (db_appends rows Hok) as (b & Hb & Hrep).
  { rewrite rows_words, Hm. unfold rows at 1. rewrite fmap_length. exact Hsz. }
  erewrite fold_res_ext.
  - unfold rows in Hb. rewrite fold_res_fmap in Hb. cbn [fst snd] in Hb. rewrite Hb. cbn [mbind res_bind].
    eexists; split; [done|]. by exists rows, (db_last b).
  - intros b' u Hu. cbn beta. destruct (HL u Hu) as [-> _]. cbn [mbind res_bind]. reflexivity.
Qed.
End with_iter.

Lemma lists_in_order_unique order P l l' : NoDup order → lists_in_order order P l → lists_in_order order P l' → l = l'.
Proof.
  intros Hnd H H'.
  assert (∀ l, lists_in_order order P l → StronglySorted (before order) l) as Hss.
  { clear H H'. intros k [_ Hk]. induction k as [|x k IH]; [constructor|]. constructor.
    - apply IH. intros i j a b Hi Hj Hij. apply (Hk (S i) (S j)); [done|done|lia].
    - apply Forall_forall. intros y [j Hj]%elem_of_list_lookup. apply (Hk 0 (S j)); [done|done|lia]. }
  assert (AntiSymm eq (before order)) by (intros x y H1 H2; exfalso; exact (ord_irrefl _ _ _ Hnd H1 H2)).
  eapply (StronglySorted_unique (before order)); [by apply Hss|by apply Hss|].
  apply NoDup_Permutation; [by eapply lists_in_order_NoDup|by eapply lists_in_order_NoDup|].
  intros x. by rewrite (proj1 H), (proj1 H').
Qed.
