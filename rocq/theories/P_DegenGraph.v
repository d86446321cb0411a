(** Proofs about the packed DegenGraph. *)
From Verif Require Import Base Spec M_Graph M_Iterators M_EditGraph M_Algorithms M_OrdGraph M_DegenGraph S_Graph S_Linear
  P_EditGraph P_Generators P_Iterators P_Degeneracy P_Operations P_OrdGraph P_OrdGraph2 P_Packed.

(** ** Order facts *)
Lemma ord_irrefl {A} (l : list A) x y : NoDup l → before l x y → ¬ before l y x.
Proof.
  intros Hnd (i & j & Hi & Hj & Hij) (j' & i' & Hj' & Hi' & Hij'). unfold pos in *.
  pose proof (NoDup_lookup _ _ _ _ Hnd Hi Hi'). pose proof (NoDup_lookup _ _ _ _ Hnd Hj Hj'). lia.
Qed.
Lemma ord_irrefl' {A} (l : list A) x : NoDup l → ¬ before l x x.
Proof. intros Hnd H. by eapply ord_irrefl. Qed.
Lemma ord_total {A} (l : list A) x y : x ∈ l → y ∈ l → x ≠ y → before l x y ∨ before l y x.
Proof.
  intros Hx Hy Hne. apply elem_of_list_lookup in Hx as [i Hi], Hy as [j Hj].
  destruct (lt_eq_lt_dec i j) as [[H|H]|H]; [left; by exists i, j|congruence|right; by exists j, i].
Qed.
Lemma ord_trans {A} (l : list A) x y z : NoDup l → before l x y → before l y z → before l x z.
Proof.
  intros Hnd (i & j & Hi & Hj & Hij) (j' & k & Hj' & Hk & Hjk). unfold pos in *.
  pose proof (NoDup_lookup _ _ _ _ Hnd Hj Hj'). exists i, k. unfold pos. split_and!; [done|done|lia].
Qed.
Lemma before_app {A} (l l' : list A) x y : before l x y → before (l ++ l') x y.
Proof. intros (i & j & Hi & Hj & Hij). exists i, j. unfold pos in *. split_and!; [by apply lookup_app_l_Some|by apply lookup_app_l_Some|done]. Qed.
Lemma before_snoc {A} (l : list A) x y : x ∈ l → before (l ++ [y]) x y.
Proof.
  intros [i Hi]%elem_of_list_lookup. exists i, (length l). unfold pos. split_and!.
  - by apply lookup_app_l_Some.
  - by apply list_lookup_middle.
  - by apply lookup_lt_Some in Hi.
Qed.

(** ** Rows: vertices with their left neighbours *)
Definition ord_of (rows : list (N * list N)) : list N := rows.*1.
Definition row_adj (rows : list (N * list N)) (u v : N) : Prop :=
  ∃ ns, ((v, ns) ∈ rows ∧ u ∈ ns) ∨ ((u, ns) ∈ rows ∧ v ∈ ns).
(** [u] is in the row of [v]. *)
Definition row_lt (rows : list (N * list N)) (u v : N) : Prop := ∃ ns, (v, ns) ∈ rows ∧ u ∈ ns.

Record rows_weak (rows : list (N * list N)) : Prop := {
  ro_nd : NoDup rows.*1;
  ro_left : ∀ u ns, (u, ns) ∈ rows → ∀ v, v ∈ ns → before rows.*1 v u;
}.
Record rows_ok (rows : list (N * list N)) : Prop := {
  ro_weak :> rows_weak rows;
  ro_sorted : ∀ u ns, (u, ns) ∈ rows → ∀ i j x y, ns !! i = Some x → ns !! j = Some y → i < j → before rows.*1 x y;
}.

Lemma rows_ok_intro rows : NoDup rows.*1 → (∀ u ns, (u, ns) ∈ rows → ∀ v, v ∈ ns → before rows.*1 v u) →
  (∀ u ns, (u, ns) ∈ rows → ∀ i j x y, ns !! i = Some x → ns !! j = Some y → i < j → before rows.*1 x y) → rows_ok rows.
Proof. intros H1 H2 H3. split; [by split|done]. Qed.

Lemma rows_fun (rows : list (N * list N)) u ns ns' : NoDup rows.*1 → (u, ns) ∈ rows → (u, ns') ∈ rows → ns = ns'.
Proof.
  intros Hnd H1 H2. apply elem_of_list_lookup in H1 as [i Hi], H2 as [j Hj].
  assert (i = j) as ->; [|congruence].
  eapply (NoDup_lookup rows.*1); [done| |]; rewrite list_lookup_fmap.
  - by rewrite Hi.
  - by rewrite Hj.
Qed.
Lemma rows_row (rows : list (N * list N)) u : u ∈ rows.*1 ↔ ∃ ns, (u, ns) ∈ rows.
Proof.
  rewrite elem_of_list_fmap. split.
  - intros ([u' ns] & -> & H). by exists ns.
  - intros (ns & H). by exists (u, ns).
Qed.

Section rows.
Context (rows : list (N * list N)) (Hok : rows_weak rows).
Local Notation order := (rows.*1).

Lemma row_lt_before u v : row_lt rows u v → before order u v.
Proof. intros (ns & H & Hu). by eapply (ro_left _ Hok). Qed.
Lemma row_adj_lt u v : row_adj rows u v ↔ row_lt rows u v ∨ row_lt rows v u.
Proof. unfold row_adj, row_lt. naive_solver. Qed.
Lemma row_adj_sym u v : row_adj rows u v → row_adj rows v u.
Proof. rewrite !row_adj_lt. tauto. Qed.
Lemma row_adj_irrefl u : ¬ row_adj rows u u.
Proof. rewrite row_adj_lt. intros [H|H]; apply row_lt_before in H; by apply ord_irrefl' in H; [|apply Hok]. Qed.
Lemma row_adj_in u v : row_adj rows u v → u ∈ order ∧ v ∈ order.
Proof. rewrite row_adj_lt. intros [H%row_lt_before|H%row_lt_before]; by apply before_cons_inv in H as [? ?]. Qed.
Lemma row_lt_adj u v : row_lt rows u v ↔ row_adj rows v u ∧ before order u v.
Proof.
  rewrite row_adj_lt. split.
  - intros H. split; [by right|by apply row_lt_before].
  - intros [[H%row_lt_before|H] Hb]; [|done]. exfalso. by eapply ord_irrefl; [apply Hok|..].
Qed.
(** The edges as a list. *)
Definition row_edges (rows : list (N * list N)) : list (N * N) :=
  concat (map (λ r, map (upair r.1) r.2) rows).
Lemma row_edges_length (rs : list (N * list N)) : length (row_edges rs) = sum_list_with (λ r, length r.2) rs.
Proof. unfold row_edges. induction rs as [|r l IH]; [done|]. cbn. by rewrite app_length, map_length, IH. Qed.
Lemma row_edges_elem e : e ∈ row_edges rows ↔ ∃ u v, row_lt rows v u ∧ e = upair u v.
Proof.
  unfold row_edges. rewrite elem_of_concat. split.
  - intros (x & ([u ns] & -> & Hr)%elem_of_list_fmap & He). apply elem_of_list_fmap in He as (v & -> & Hv). exists u, v.
    split; [by exists ns|done].
  - intros (u & v & (ns & Hr & Hv) & ->). exists (map (upair u) ns). split; apply elem_of_list_fmap; [by exists (u, ns)|by exists v].
Qed.
Lemma row_lists u ns : (u, ns) ∈ rows → ∀ v, v ∈ ns ↔ row_adj rows u v ∧ before order v u.
Proof.
  intros H v. rewrite <- row_lt_adj. split; [by exists ns|].
  intros (ns' & H' & Hv). by rewrite (rows_fun _ _ _ _ (ro_nd _ Hok) H H').
Qed.
End rows.
Lemma row_left rows (Hok : rows_ok rows) u ns : (u, ns) ∈ rows → lists_in_order rows.*1 (λ v, row_adj rows u v ∧ before rows.*1 v u) ns.
Proof. intros H. split; [by apply (row_lists rows (ro_weak _ Hok))|by eapply (ro_sorted _ Hok)]. Qed.
Lemma row_NoDup rows (Hok : rows_ok rows) u ns : (u, ns) ∈ rows → NoDup ns.
Proof. intros H. eapply lists_in_order_NoDup; [apply Hok|by apply row_left]. Qed.

Lemma row_edges_NoDup rows : NoDup rows.*1 → (∀ u ns, (u, ns) ∈ rows → NoDup ns) →
  (∀ u v, row_lt rows u v → ¬ row_lt rows v u) → NoDup (row_edges rows).
Proof.
  induction rows as [|[u ns] rows IH]; intros Hnd Hns Has; [constructor|].
  unfold row_edges. cbn. fold (row_edges rows). cbn in Hnd. apply NoDup_cons in Hnd as [Hu Hnd].
  apply NoDup_app. split_and!.
  - apply (NoDup_fmap_2_strong _ ns); [|eapply Hns; by left]. intros x y _ _ Heq. by apply upair_inj_r in Heq.
  - intros e (v & -> & Hv)%elem_of_list_fmap (u' & v' & Hlt & Heq)%row_edges_elem.
    apply upair_inj in Heq as [[-> ->]|[-> ->]].
    + destruct Hlt as (ns' & H' & _). destruct Hu. apply rows_row. eauto.
    + eapply Has; [exists ns; split; [by left|exact Hv]|]. destruct Hlt as (ns' & H' & Hv'). exists ns'. split; [by right|done].
  - apply IH; [done| |].
    + intros u' ns' H'. eapply Hns. by right.
    + intros a b (n1 & H1 & H1') (n2 & H2 & H2'). eapply (Has a b).
      * exists n1. split; [by right|done].
      * exists n2. split; [by right|done].
Qed.

Lemma rows_edge_set rows : rows_ok rows →
  ∃ E : gset (N * N), (∀ u v, (u, v) ∈ E ↔ (u <= v)%N ∧ row_adj rows u v) ∧
    size E = sum_list_with (λ r, length r.2) rows.
Proof.
  intros Hok. exists (list_to_set (row_edges rows)). split.
  - intros u v. rewrite elem_of_list_to_set, row_edges_elem. split.
    + intros (a & b & Hlt & Heq). pose proof (upair_le a b) as Hle. rewrite <- Heq in Hle. cbn [fst snd] in Hle. split; [done|].
      rewrite row_adj_lt. rewrite <- (upair_le_id _ _ Hle) in Heq. apply upair_inj in Heq as [[-> ->]|[-> ->]]; auto.
    + intros [Hle Ha]. rewrite row_adj_lt in Ha. destruct Ha as [Ha|Ha].
      * exists v, u. split; [done|]. rewrite upair_comm. by rewrite upair_le_id.
      * exists u, v. split; [done|]. by rewrite upair_le_id.
  - rewrite <- row_edges_length. apply size_list_to_set. apply row_edges_NoDup.
    + apply Hok.
    + intros u ns. by apply row_NoDup.
    + intros u v H1%row_lt_before H2%row_lt_before; [|apply Hok|apply Hok]. by eapply ord_irrefl; [apply Hok|..].
Qed.

(** ** Representation *)
Definition enc (r : N * list N) : N * list N := (r.1, N.of_nat (length r.2) :: r.2).
Definition roff (rows : list (N * list N)) (i : nat) : nat := off (enc <$> rows) i.

Record dg_rep (rows : list (N * list N)) (last : option N) (g : degengraph) : Prop := {
  dr_packed : packed (enc <$> rows) (dg_contents g) last;
  dr_ind : ∀ u i, dg_indices g !! u = Some i ↔ ∃ k, rows.*1 !! k = Some u ∧ i = roff rows k;
  dr_right_dom : ∀ u, is_Some (dg_right g !! u) ↔ u ∈ rows.*1;
  dr_right : ∀ u R, dg_right g !! u = Some R → ∀ v, v ∈ R ↔ row_lt rows u v;
  dr_m : dg_m g = sum_list_with (λ r, length r.2) rows;
}.

Lemma dg_rep_nil : dg_rep [] None dg_new.
Proof.
  split; cbn.
  - apply packed_nil.
  - intros u i. rewrite lookup_empty. split; [done|]. by intros (k & ? & ?).
  - intros u. rewrite lookup_empty. split; [by intros [? ?]|set_solver].
  - intros u R. by rewrite lookup_empty.
  - done.
Qed.

Lemma roff_total rows : roff rows (length rows) = sum_list_with (λ r, 3 + length r.2) rows.
Proof.
  unfold roff, off. rewrite take_ge by (by rewrite fmap_length). induction rows as [|[u ns] rows IH]; [done|].
  cbn [fmap list_fmap sum_list_with enc snd length]. rewrite IH. lia.
Qed.

Lemma rows_weak_snoc rows u ns : rows_weak rows → u ∉ rows.*1 → (∀ v, v ∈ ns → v ∈ rows.*1) → rows_weak (rows ++ [(u, ns)]).
Proof.
  intros Hok Hu Hns. split; rewrite ?fmap_app; cbn.
  - apply NoDup_app. split_and!; [apply Hok| |apply NoDup_singleton]. set_solver.
  - intros w ns' [H|H%elem_of_list_singleton]%elem_of_app v Hv.
    + apply before_app. by eapply (ro_left _ Hok).
    + injection H as -> ->. apply before_snoc. by apply Hns.
Qed.

Lemma foldl_right_insert (u : N) (ns : list N) : ∀ (r : gmap N (gset N)) v,
  (∀ R, foldl (λ right v, map_upd ∅ (λ X, {[u]} ∪ X) v right) r ns !! v = Some R →
     ∃ R0, (r !! v = Some R0 ∨ (r !! v = None ∧ R0 = ∅)) ∧ ∀ x, x ∈ R ↔ x ∈ R0 ∨ (x = u ∧ v ∈ ns)) ∧
  (is_Some (foldl (λ right v, map_upd ∅ (λ X, {[u]} ∪ X) v right) r ns !! v) ↔ is_Some (r !! v) ∨ v ∈ ns).
Proof.
  induction ns as [|a ns IH]; intros r v; cbn [foldl].
  - split; [|set_solver]. intros R HR. exists R. split; [by left|]. set_solver.
  - destruct (IH (map_upd ∅ (λ X, {[u]} ∪ X) a r) v) as [H1 H2]. unfold map_upd in *. split.
    + intros R HR. destruct (H1 R HR) as (R0 & HR0 & Hx). destruct (decide (v = a)) as [->|Hne].
      * rewrite lookup_insert in HR0. destruct HR0 as [[= <-]|[? _]]; [|done].
        destruct (r !! a) as [R1|] eqn:E.
        -- exists R1. split; [by left|]. intros x. rewrite Hx. cbn. rewrite elem_of_union, elem_of_singleton, elem_of_cons. tauto.
        -- exists ∅. split; [by right|]. intros x. rewrite Hx. cbn. rewrite elem_of_union, elem_of_singleton, elem_of_cons. tauto.
      * rewrite lookup_insert_ne in HR0 by done. exists R0. split; [done|]. intros x. rewrite Hx, elem_of_cons. tauto.
    + rewrite H2. destruct (decide (v = a)) as [->|Hne].
      * rewrite lookup_insert, elem_of_cons. split; [by auto|]. intros _. left. eauto.
      * rewrite lookup_insert_ne by done. rewrite elem_of_cons. tauto.
Qed.

Lemma db_append_spec rows last g u ns : rows_weak rows → dg_rep rows last g → u ∉ rows.*1 → (∀ v, v ∈ ns → v ∈ rows.*1) →
  (N.of_nat (roff rows (length rows) + 3 + length ns) <= u32_mod)%N →
  ∃ b, db_append (DgBuilder last g) u ns = Ok b ∧ dg_rep (rows ++ [(u, ns)]) (db_last b) (db_graph b).
Proof.
  intros Hok H Hu Hns Hsz.
  pose proof (pk_length _ _ _ (dr_packed _ _ _ H)) as Hlen. rewrite fmap_length in Hlen. fold (roff rows (length rows)) in Hlen.
  destruct (packed_push_spec _ (dg_indices g) _ _ u (dr_packed _ _ _ H)) as (c' & Hp & Hlc & Hpk).
  { rewrite Hlen. lia. }
  unfold db_append. cbn [db_graph db_last]. rewrite Hp. cbn [mbind res_bind]. eexists; split; [done|].
  cbn [db_graph db_last]. rewrite u32_small by (change 4294967296%N with u32_mod; lia).
  split; cbn [dg_contents dg_indices dg_right dg_m].
  - rewrite fmap_app. cbn [fmap list_fmap]. apply (Hpk (N.of_nat (length ns) :: ns)).
  - intros v i. rewrite fmap_app. cbn [fmap list_fmap fst].
    assert (∀ k, k ≤ length rows → roff (rows ++ [(u, ns)]) k = roff rows k) as Hro.
    { intros k Hk. unfold roff. rewrite fmap_app. apply off_app. by rewrite fmap_length. }
    destruct (decide (v = u)) as [->|Hne].
    + rewrite lookup_insert. rewrite Hlen. split.
      * intros [= <-]. exists (length rows). rewrite Hro by done. split; [|done]. apply list_lookup_middle. by rewrite fmap_length.
      * intros (k & Hk & ->). assert (k = length rows) as ->; [|by rewrite Hro by done].
        destruct (decide (k < length rows)) as [Hlt|Hge].
        -- rewrite lookup_app_l in Hk by (by rewrite fmap_length). destruct Hu. by eapply elem_of_list_lookup_2.
        -- apply lookup_lt_Some in Hk. rewrite app_length, fmap_length in Hk. cbn in Hk. lia.
    + rewrite lookup_insert_ne by done. rewrite (dr_ind _ _ _ H). split.
      * intros (k & Hk & ->). exists k. split; [by apply lookup_app_l_Some|]. rewrite Hro; [done|].
        apply lookup_lt_Some in Hk. rewrite fmap_length in Hk. lia.
      * intros (k & Hk & ->). exists k. assert (k < length rows) as Hlt.
        { destruct (decide (k = length rows)) as [->|]; [|apply lookup_lt_Some in Hk; rewrite app_length, fmap_length in Hk; cbn in Hk; lia].
          rewrite list_lookup_middle in Hk by (by rewrite fmap_length). congruence. }
        rewrite lookup_app_l in Hk by (by rewrite fmap_length). split; [done|]. rewrite Hro; [done|lia].
  - intros v. rewrite (proj2 (foldl_right_insert u ns _ v)). rewrite fmap_app. cbn [fmap list_fmap fst].
    rewrite elem_of_app, elem_of_list_singleton. unfold map_upd. destruct (decide (v = u)) as [->|Hne].
    + rewrite lookup_insert. split; [by right|]. intros _. left. eauto.
    + rewrite lookup_insert_ne by done. rewrite (dr_right_dom _ _ _ H). split; [|naive_solver]. intros [?|?%Hns]; by left.
  - intros v R HR w. destruct (proj1 (foldl_right_insert u ns _ v) R HR) as (R0 & HR0 & Hx). rewrite Hx. unfold map_upd in HR0.
    assert (w ∈ R0 ↔ row_lt rows v w) as ->.
    { assert (∀ R1, dg_right g !! v = Some R1 → w ∈ R1 ↔ row_lt rows v w) as Hs by (intros R1 HR1; by apply (dr_right _ _ _ H)).
      assert (dg_right g !! v = None → ¬ row_lt rows v w) as Hn.
      { intros E Hlt%row_lt_before; [|done]. apply before_cons_inv in Hlt as [Hv _].
        apply (dr_right_dom _ _ _ H) in Hv. rewrite E in Hv. by destruct Hv. }
      destruct (decide (v = u)) as [->|Hne].
      - rewrite lookup_insert in HR0. destruct HR0 as [[= <-]|[? _]]; [|done].
        destruct (dg_right g !! u) as [R1|] eqn:E; cbn; [by apply Hs|]. specialize (Hn eq_refl). set_solver.
      - rewrite lookup_insert_ne in HR0 by done. destruct HR0 as [HR0|[E ->]]; [by apply Hs|]. specialize (Hn E). set_solver. }
    unfold row_lt. split.
    + intros [(ns' & H1 & H2)|[-> Hv]].
      * exists ns'. rewrite elem_of_app. auto.
      * exists ns. rewrite elem_of_app, elem_of_list_singleton. auto.
    + intros (ns' & [H1|H1%elem_of_list_singleton]%elem_of_app & H2).
      * left. by exists ns'.
      * injection H1 as -> ->. by right.
  - rewrite sum_list_with_app, (dr_m _ _ _ H). cbn. lia.
Qed.

(** ** Queries *)
Section queries.
Context `{HI : HashIter}.
Context (rows : list (N * list N)) (last : option N) (g : degengraph).
Context (Hok : rows_weak rows) (Hrep : dg_rep rows last g).
Local Notation order := (rows.*1).

Lemma dg_row k u ns : rows !! k = Some (u, ns) →
  (enc <$> rows) !! k = Some (u, N.of_nat (length ns) :: ns).
Proof. intros H. by rewrite list_lookup_fmap, H. Qed.
Lemma dg_lookup u : u ∈ order → ∃ k ns, rows !! k = Some (u, ns) ∧ order !! k = Some u ∧ dg_indices g !! u = Some (roff rows k).
Proof.
  intros ([u' ns] & -> & [k Hk]%elem_of_list_lookup)%elem_of_list_fmap. exists k, ns. cbn.
  assert (order !! k = Some u') by (by rewrite list_lookup_fmap, Hk). split_and!; [done|done|].
  apply (dr_ind _ _ _ Hrep). by exists k.
Qed.
Lemma dg_ind_elem u : is_Some (dg_indices g !! u) ↔ u ∈ order.
Proof.
  split.
  - intros [i (k & Hk & _)%(dr_ind _ _ _ Hrep)]. by eapply elem_of_list_lookup_2.
  - intros (k & ns & _ & _ & ->)%dg_lookup. eauto.
Qed.
Lemma dg_ind_size : size (dg_indices g) = length rows.
Proof.
  rewrite <- size_dom. assert (dom (dg_indices g) = list_to_set order) as ->.
  { apply set_eq. intros u. by rewrite elem_of_dom, dg_ind_elem, elem_of_list_to_set. }
  rewrite size_list_to_set by apply Hok. by rewrite fmap_length.
Qed.
Lemma dg_vtx u : contains (dg_graph g) u = true ↔ u ∈ order.
Proof. cbn. by rewrite bool_decide_eq_true, dg_ind_elem. Qed.
Lemma dg_order_drains : drains (do_next g) (do_new g) order.
Proof.
  unfold do_new. rewrite dg_ind_size.
  pose proof (order_drains _ _ _ (dr_packed _ _ _ Hrep)) as Hd. rewrite fmap_length in Hd.
  assert ((enc <$> rows).*1 = order) as Heq by (rewrite <- list_fmap_compose; by apply list_fmap_ext).
  rewrite Heq in Hd. exact Hd.
Qed.
Lemma dg_verts : vertices (dg_graph g) = order.
Proof.
  unfold dg_graph. cbn [vertices]. unfold dg_order. rewrite (drains_collect_it _ _ _ dg_order_drains); [done|]. rewrite dg_ind_size, fmap_length. lia.
Qed.
Lemma dg_left_slice_spec u ns : (u, ns) ∈ rows → dg_left_slice g u = Ok ns ∧ dg_left_degree g u = Ok (length ns).
Proof.
  intros Hr. destruct (dg_lookup u) as (k & ns' & Hk & _ & Hi); [apply rows_row; eauto|].
  assert (ns' = ns) as ->. { eapply (rows_fun rows u); [apply Hok| |done]. by eapply elem_of_list_lookup_2. }
  unfold dg_left_slice, dg_left_degree, dg_index_of. rewrite Hi. cbn [unwrap mbind res_bind].
  pose proof (dg_row _ _ _ Hk) as Hk'. pose proof (dr_packed _ _ _ Hrep) as Hp.
  destruct (pk_row _ _ _ Hp k _ _ Hk') as (H1 & _ & H3). fold (roff rows k) in *. rewrite H1. cbn [unwrap mbind res_bind].
  rewrite bool_decide_true by done. cbn [assert_res mbind res_bind].
  specialize (H3 0 _ eq_refl). rewrite Nat.add_0_r in H3. rewrite H3. cbn [unwrap mbind res_bind]. rewrite Nat2N.id.
  split; [|done].
  replace (roff rows k + 3) with (roff rows k + 2 + 1) by lia.
  replace (roff rows k + 2 + 1 + length ns) with (roff rows k + 2 + (1 + length ns)) by lia.
  unfold roff. rewrite (packed_slice _ _ _ _ _ _ 1 (1 + length ns) Hp Hk') by (cbn; lia).
  f_equal. cbn. rewrite Nat.sub_0_r. by rewrite firstn_all.
Qed.
Lemma dg_iter_drains : drains (di_next g) (di_new g) rows.
Proof.
  unfold di_new. rewrite dg_ind_size. pose proof (dr_packed _ _ _ Hrep) as Hp.
  destruct (Nat.eqb_spec (length rows) 0) as [Hl|Hl].
  { destruct rows; [|done]. by eapply drains_nil. }
  assert (∀ n i, n = length rows - i → i < length rows → drains (di_next g) (Some (roff rows i)) (drop i rows)) as Hd.
  { induction n as [|n IH]; intros i Hn Hi; [lia|]. destruct (lookup_lt_is_Some_2 rows i Hi) as [[u ns] Hr].
    rewrite (drop_S _ _ _ Hr). pose proof (dg_row _ _ _ Hr) as Hk'.
    destruct (pk_row _ _ _ Hp i _ _ Hk') as (H1 & H2 & H3). specialize (H3 0 _ eq_refl). rewrite Nat.add_0_r in H3.
    fold (roff rows i) in *. rewrite fmap_length in H2.
    assert (slice (dg_contents g) (roff rows i + 3) (roff rows i + 3 + length ns) = Ok ns) as Hsl.
    { replace (roff rows i + 3) with (roff rows i + 2 + 1) by lia.
      replace (roff rows i + 2 + 1 + length ns) with (roff rows i + 2 + (1 + length ns)) by lia.
      unfold roff. rewrite (packed_slice _ _ _ _ _ _ 1 (1 + length ns) Hp Hk') by (cbn; lia).
      f_equal. cbn. rewrite Nat.sub_0_r. by rewrite firstn_all. }
    eapply drains_cons.
    - cbn [di_next]. rewrite H1. cbn [unwrap mbind res_bind]. rewrite H2. cbn [unwrap mbind res_bind].
      rewrite H3. cbn [unwrap mbind res_bind]. rewrite !Nat2N.id.
      rewrite Hsl. cbn [mbind res_bind]. reflexivity.
    - destruct (Nat.eqb_spec (S i) (length rows)) as [Hl'|Hl'].
      + rewrite Nat.eqb_refl. rewrite drop_ge by lia. by eapply drains_nil.
      + rewrite (proj2 (Nat.eqb_neq _ _)); [apply IH; lia|]. fold (roff rows (S i)). unfold roff. rewrite (off_S _ _ _ _ Hk'). lia. }
  apply (Hd (length rows) 0); lia.
Qed.
Lemma dg_right_spec u : u ∈ order → ∃ R, dg_right g !! u = Some R ∧ ∀ v, v ∈ R ↔ row_adj rows u v ∧ before order u v.
Proof.
  intros Hu. apply (dr_right_dom _ _ _ Hrep) in Hu as [R HR]. exists R. split; [done|].
  intros v. rewrite (dr_right _ _ _ Hrep _ _ HR), row_lt_adj by done. split; intros [H ?]; (split; [by apply row_adj_sym|done]).
Qed.
Lemma dg_adj u v : adj (dg_graph g) u v ↔ row_adj rows u v.
Proof.
  unfold adj. cbn. destruct (dg_right g !! u) as [R|] eqn:Eu; [destruct (dg_right g !! v) as [R'|] eqn:Ev|].
  - rewrite orb_true_iff, !bool_decide_eq_true, (dr_right _ _ _ Hrep _ _ Eu), (dr_right _ _ _ Hrep _ _ Ev).
    by rewrite row_adj_lt.
  - split; [done|]. intros [_ Hv]%row_adj_in; [|done]. apply (dr_right_dom _ _ _ Hrep) in Hv. rewrite Ev in Hv. by destruct Hv.
  - split; [done|]. intros [Hv _]%row_adj_in; [|done]. apply (dr_right_dom _ _ _ Hrep) in Hv. rewrite Eu in Hv. by destruct Hv.
Qed.
Lemma dg_adjacent_ordered_spec u v : dg_adjacent_ordered g u v = true ↔ row_adj rows u v ∧ before order u v.
Proof.
  unfold dg_adjacent_ordered. destruct (decide (u ∈ order)) as [Hu|Hu].
  - destruct (dg_right_spec u Hu) as (R & -> & HR). by rewrite bool_decide_eq_true, HR.
  - destruct (dg_right g !! u) eqn:E; [destruct Hu; apply (dr_right_dom _ _ _ Hrep); by rewrite E|].
    split; [done|]. intros [[Hv _]%row_adj_in _]; done.
Qed.
Lemma dg_first_spec : dg_first g = head order.
Proof.
  unfold dg_first. pose proof (dr_packed _ _ _ Hrep) as Hp. destruct rows as [|[u ns] rows'].
  - pose proof (pk_length _ _ _ Hp) as Hl. destruct (dg_contents g); [done|]. cbn in Hl. lia.
  - destruct (pk_row _ _ _ Hp 0 u _ eq_refl) as (H1 & _). cbn in H1. cbn. by destruct (dg_contents g).
Qed.
Context (Hso : rows_ok rows).
Lemma dg_graph_wf_so : graph_wf (dg_graph g).
Proof.
  split.
  - intros u. rewrite dg_verts. symmetry. apply dg_vtx.
  - rewrite dg_verts. apply Hok.
  - rewrite dg_verts, fmap_length. apply dg_ind_size.
  - intros u v [Hu _]%dg_adj%row_adj_in; [|done]. by apply dg_vtx.
  - intros u v H%dg_adj. by apply dg_adj, row_adj_sym.
  - intros u Hu%dg_vtx. apply rows_row in Hu as (ns & Hr). destruct (dg_left_slice_spec u ns Hr) as [Hs Hd].
    destruct (dg_right_spec u) as (R & HR & HRx); [apply rows_row; eauto|].
    destruct (row_left _ Hso _ _ Hr) as [Hl _].
    exists (ns ++ hash_iter 0 R). split_and!.
    + cbn. rewrite Hs. cbn [mbind res_bind]. by rewrite HR.
    + apply NoDup_app. split_and!; [by eapply row_NoDup| |apply NoDup_hash_iter].
      intros x. rewrite elem_of_hash_iter, Hl, HRx. intros [_ H1] [_ H2]. by eapply ord_irrefl; [apply Hok|..].
    + intros v. rewrite elem_of_app, elem_of_hash_iter, Hl, HRx, dg_adj. split; [tauto|]. intros H.
      destruct (row_adj_in _ Hok _ _ H). destruct (ord_total order u v) as [Hb|Hb]; [done|done| |auto|auto].
      intros ->. by apply row_adj_irrefl in H.
    + assert (adjacent (dg_graph g) u u = false) as ->.
      { apply not_true_is_false. intros H%dg_adj. by apply row_adj_irrefl in H. }
      cbn. unfold dg_right_degree. rewrite Hd, HR, app_length, hash_iter_length. lia.
  - destruct (rows_edge_set rows Hso) as (E & HE & Hsz). exists E. split.
    + intros u v. by rewrite HE, dg_adj.
    + cbn. by rewrite Hsz, (dr_m _ _ _ Hrep).
Qed.
Lemma dg_lgraph_wf_so : lgraph_wf (dg_lgraph g).
Proof.
  split; change (vertices (dg_lgraph g)) with (vertices (dg_graph g)); rewrite ?dg_verts.
  - apply dg_graph_wf_so.
  - intros u H%dg_adj. by apply row_adj_irrefl in H.
  - intros u Hu%dg_vtx. destruct (dg_lookup u Hu) as (k & ns & _ & _ & Hi). exists (roff rows k). cbn. unfold dg_index_of. by rewrite Hi.
  - intros u Hu. cbn. unfold dg_index_of. destruct (dg_indices g !! u) eqn:E; [|done]. destruct Hu. apply dg_vtx, dg_ind_elem. eauto.
  - intros u v i j Hi%unwrap_ok Hj%unwrap_ok.
    apply (dr_ind _ _ _ Hrep) in Hi as (k & Hk & ->), Hj as (k' & Hk' & ->).
    assert (k < length rows ∧ k' < length rows) as [Hkl Hkl'].
    { apply lookup_lt_Some in Hk, Hk'. rewrite fmap_length in Hk, Hk'. done. }
    split.
    + intros Hlt. exists k, k'. split_and!; [done|done|]. destruct (lt_eq_lt_dec k k') as [[H|H]|H]; [done|subst; lia|].
      unfold roff in Hlt. pose proof (off_le (enc <$> rows) k' k). rewrite fmap_length in *. lia.
    + intros Hb. destruct (decide (k < k')) as [H|H].
      * unfold roff. pose proof (off_lt (enc <$> rows) k k'). rewrite fmap_length in *. lia.
      * exfalso. assert (k = k' ∨ k' < k) as [->|H'] by lia.
        -- assert (u = v) as -> by congruence. by eapply ord_irrefl'; [apply Hok|].
        -- eapply ord_irrefl; [apply Hok|exact Hb|]. by exists k', k.
  - intros u Hu%dg_vtx. apply rows_row in Hu as (ns & Hr). destruct (dg_left_slice_spec u ns Hr) as [Hs Hd].
    exists ns. split; [done|]. destruct (row_left _ Hso _ _ Hr) as [Hl Hs']. split; [|done]. intros x. rewrite Hl. by rewrite dg_adj.
  - intros u Hu%dg_vtx. destruct (dg_right_spec u Hu) as (R & HR & HRx). exists (elements R). split_and!.
    + apply NoDup_elements.
    + cbn. unfold dg_right_degree. by rewrite HR.
    + intros v. by rewrite elem_of_elements, HRx, dg_adj.
Qed.
End queries.
Lemma dg_graph_wf `{HI : HashIter} rows last g : rows_ok rows → dg_rep rows last g → graph_wf (dg_graph g).
Proof. intros Hok Hrep. exact (dg_graph_wf_so rows last g (ro_weak _ Hok) Hrep Hok). Qed.
Lemma dg_lgraph_wf `{HI : HashIter} rows last g : rows_ok rows → dg_rep rows last g → lgraph_wf (dg_lgraph g).
Proof. intros Hok Hrep. exact (dg_lgraph_wf_so rows last g (ro_weak _ Hok) Hrep Hok). Qed.

(** ** Construction from rows *)
Lemma db_appends rows : rows_weak rows → (N.of_nat (roff rows (length rows)) <= u32_mod)%N →
  ∃ b, fold_res (λ b r, db_append b r.1 r.2) rows db_new = Ok b ∧ dg_rep rows (db_last b) (db_graph b).
Proof.
  intros Hok Hsz.
  destruct (fold_res_inv (λ b (r : N * list N), db_append b r.1 r.2)
    (λ pre b, rows_weak pre ∧ dg_rep pre (db_last b) (db_graph b)) rows db_new) as (b & Hb & _ & Hr); [..|by exists b].
  - split; [|apply dg_rep_nil]. split; [constructor|set_solver].
  - intros l1 [u ns] l2 b Heq [Hok1 Hr]. cbn [fst snd].
    pose proof (ro_nd _ Hok) as Hnd. rewrite Heq, fmap_app in Hnd. cbn in Hnd. apply NoDup_app in Hnd as (Hnd1 & Hdis & [Hu Hnd2]%NoDup_cons).
    assert (u ∉ l1.*1) as Hu1 by set_solver.
    assert ((u, ns) ∈ rows) as Hrow by (rewrite Heq; set_solver).
    assert (∀ x y, before rows.*1 x y → y ∈ l1.*1 ∨ y = u → x ∈ l1.*1 ∧ (y ∈ l1.*1 → before l1.*1 x y)) as Hbef.
    { intros x y (i & j & Hi & Hj & Hij) Hy. unfold pos in *.
      assert (j ≤ length l1.*1) as Hjl.
      { destruct Hy as [Hy|Hy].
        - apply elem_of_list_lookup in Hy as [j' Hj']. pose proof (lookup_lt_Some _ _ _ Hj').
          assert (j = j'); [|lia]. eapply NoDup_lookup; [apply (ro_nd _ Hok)|done|]. rewrite Heq, fmap_app. by apply lookup_app_l_Some.
        - assert (j = length l1.*1); [|lia]. eapply NoDup_lookup; [apply (ro_nd _ Hok)|done|]. rewrite Heq, fmap_app. cbn. rewrite Hy. by apply list_lookup_middle. }
      rewrite Heq, fmap_app in Hi. rewrite lookup_app_l in Hi by lia. split; [by eapply elem_of_list_lookup_2|].
      intros Hy1. exists i, j. unfold pos. split_and!; [done| |done]. rewrite Heq, fmap_app in Hj. cbn in Hj.
      destruct (decide (j = length l1.*1)) as [->|]; [|by rewrite lookup_app_l in Hj by lia].
      rewrite list_lookup_middle in Hj by done. by injection Hj as ->. }
    assert (∀ v, v ∈ ns → v ∈ l1.*1) as Hns.
    { intros v Hv. eapply (Hbef v u); [by eapply (ro_left _ Hok)|by right]. }
    destruct b as [last g]. destruct (db_append_spec l1 last g u ns Hok1 Hr Hu1 Hns) as (b' & Hb' & Hr').
    + etrans; [|exact Hsz]. rewrite !roff_total, Heq, sum_list_with_app. cbn. lia.
    + exists b'. split; [done|]. split; [|done]. by apply rows_weak_snoc.
Qed.
