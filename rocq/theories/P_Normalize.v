(** Proofs about DegenGraph::normalize. *)
From Verif Require Import Base Spec M_Graph M_Iterators M_EditGraph M_Algorithms M_OrdGraph M_DegenGraph S_Graph S_Linear
  P_EditGraph P_Generators P_Iterators P_Degeneracy P_Operations P_OrdGraph P_OrdGraph2 P_Packed P_DegenGraph P_DegenGraph2.

(** ** Rewriting one row of the packed array in place *)
Lemma off_insert rows k u b u' b' i : rows !! k = Some (u, b) → length b' = length b →
  off (<[k := (u', b')]> rows) i = off rows i.
Proof.
  intros Hk Hl. unfold off. revert k i Hk. induction rows as [|[v c] rows IH]; intros [|k] [|i] Hk; try done; cbn in *.
  - injection Hk as -> ->. by rewrite Hl.
  - do 3 f_equal. by apply IH.
Qed.

Lemma packed_rewrite rows c last k u b u' b' c' : packed rows c last → rows !! k = Some (u, b) →
  length b' = length b → length c' = length c →
  (c' !! off rows k = Some u') →
  (∀ j x, b' !! j = Some x → c' !! (off rows k + 2 + j) = Some x) →
  (∀ i, i ≠ off rows k → (i < off rows k + 2 ∨ off rows k + 2 + length b ≤ i) → c' !! i = c !! i) →
  packed (<[k := (u', b')]> rows) c' last.
Proof.
  intros H Hk Hlb Hlc Hu Hb Hrest. pose proof (lookup_lt_Some _ _ _ Hk) as Hlt. split.
  - rewrite insert_length, (off_insert _ _ _ _ _ _ _ Hk Hlb), Hlc. apply H.
  - rewrite insert_length, (off_insert _ _ _ _ _ _ _ Hk Hlb), (pk_last _ _ _ H). destruct rows; [done|]. by destruct k.
  - intros i v d Hi. rewrite insert_length, !(off_insert _ _ _ _ _ _ _ Hk Hlb).
    destruct (decide (i = k)) as [->|Hne].
    + rewrite list_lookup_insert in Hi by done. injection Hi as <- <-. destruct (pk_row _ _ _ H k u b Hk) as (_ & H2 & _).
      split_and!; [done| |done]. rewrite Hrest; [done|lia|lia].
    + rewrite list_lookup_insert_ne in Hi by done. destruct (pk_row _ _ _ H i v d Hi) as (H1 & H2 & H3).
      pose proof (lookup_lt_Some _ _ _ Hi) as Hil.
      assert (∀ j, j < 2 + length d → off rows i + j ≠ off rows k ∧
        (off rows i + j < off rows k + 2 ∨ off rows k + 2 + length b ≤ off rows i + j)) as Hd.
      { intros j Hj. destruct (decide (i < k)).
        - pose proof (off_le rows (S i) k). rewrite (off_S _ _ _ _ Hi) in *. lia.
        - pose proof (off_le rows (S k) i). rewrite (off_S _ _ _ _ Hk) in *. lia. }
      split_and!.
      * destruct (Hd 0) as [Ha Hb']; [lia|]. rewrite Nat.add_0_r in *. by rewrite Hrest.
      * destruct (Hd 1) as [Ha Hb']; [lia|]. by rewrite Hrest.
      * intros j x Hj. destruct (Hd (2 + j)) as [Ha Hb']; [apply lookup_lt_Some in Hj; lia|].
        replace (off rows i + 2 + j) with (off rows i + (2 + j)) by lia. rewrite Hrest by done.
        replace (off rows i + (2 + j)) with (off rows i + 2 + j) by lia. by apply H3.
Qed.

(** ** Renaming *)
Definition rename_row (f : N → N) (r : N * list N) : N * list N := (f r.1, f <$> r.2).

Lemma rename_before (f : N → N) (l : list N) x y : before l x y → before (f <$> l) (f x) (f y).
Proof. intros (i & j & Hi & Hj & Hij). exists i, j. unfold pos in *. rewrite !list_lookup_fmap, Hi, Hj. done. Qed.

Section rename.
Context (rows : list (N * list N)) (f : N → N).
Context (Hok : rows_ok rows) (Hinj : ∀ x y, x ∈ rows.*1 → y ∈ rows.*1 → f x = f y → x = y).
Local Notation order := (rows.*1).

Lemma rename_order : (rename_row f <$> rows).*1 = f <$> order.
Proof. rewrite <- !list_fmap_compose. by apply list_fmap_ext. Qed.
Lemma rename_ok : rows_ok (rename_row f <$> rows).
Proof.
  apply rows_ok_intro; rewrite rename_order.
  - apply NoDup_fmap_2_strong; [done|apply Hok].
  - intros u ns ([u0 ns0] & [= -> ->] & Hr)%elem_of_list_fmap v (v0 & -> & Hv)%elem_of_list_fmap.
    apply rename_before. by eapply (ro_left _ Hok).
  - intros u ns ([u0 ns0] & [= -> ->] & Hr)%elem_of_list_fmap i j x y. rewrite !list_lookup_fmap. cbn [fst snd].
    destruct (ns0 !! i) as [x0|] eqn:Ei; [|done]. destruct (ns0 !! j) as [y0|] eqn:Ej; [|done]. intros [= <-] [= <-] Hij.
    apply rename_before. by eapply (ro_sorted _ Hok).
Qed.
Lemma rename_lt u v : u ∈ order → v ∈ order → row_lt (rename_row f <$> rows) (f u) (f v) ↔ row_lt rows u v.
Proof.
  intros Hu Hv. split.
  - intros (ns & ([v0 ns0] & [= Hv0 ->] & Hr)%elem_of_list_fmap & (u0 & Hu0 & Hx)%elem_of_list_fmap). cbn [fst snd] in *.
    pose proof (ro_left _ Hok _ _ Hr _ Hx) as [Hu0' Hv0']%before_cons_inv.
    apply Hinj in Hv0; [|done|done]. apply Hinj in Hu0; [|done|done]. subst. by exists ns0.
  - intros (ns & Hr & Hx). exists (f <$> ns). split; apply elem_of_list_fmap; [by exists (v, ns)|by exists u].
Qed.
Lemma rename_adj u v : u ∈ order → v ∈ order → row_adj (rename_row f <$> rows) (f u) (f v) ↔ row_adj rows u v.
Proof. intros Hu Hv. by rewrite !row_adj_lt, !rename_lt by done. Qed.
Lemma rename_lt_inv a b : row_lt (rename_row f <$> rows) a b → ∃ u v, a = f u ∧ b = f v ∧ row_lt rows u v.
Proof.
  intros (ns & ([v0 ns0] & [= -> ->] & Hr)%elem_of_list_fmap & (u0 & -> & Hx)%elem_of_list_fmap).
  exists u0, v0. split_and!; [done|done|]. by exists ns0.
Qed.
End rename.

(** ** The loop *)
Lemma merge_sort_sorted_id l : StronglySorted N.le l → merge_sort N.le l = l.
Proof.
  intros Hs. assert (Total N.le) by (intros x y; lia). assert (Transitive N.le) by (intros x y z; lia).
  assert (AntiSymm eq N.le) by (intros x y; lia).
  eapply (StronglySorted_unique N.le); [by apply StronglySorted_merge_sort|done|apply merge_sort_Permutation].
Qed.

Section normalize.
Context `{HI : HashIter}.
Context (rows : list (N * list N)) (last : option N) (g : degengraph) (ind : gmap N nat).
Context (Hok : rows_ok rows) (Hrep : dg_rep rows last g) (Hp : pos_map ind rows.*1).
Context (Hsz : (N.of_nat (length rows) <= u32_mod)%N).
Local Notation order := (rows.*1).

(** The new name of a vertex: its position. *)
Definition nm (ind : gmap N nat) (u : N) : N := N.of_nat (px ind u).

Definition mixed (k : nat) : list (N * list N) := (rename_row (nm ind) <$> take k rows) ++ drop k rows.

Lemma mixed_lookup k j : mixed k !! j = if decide (j < k) then rename_row (nm ind) <$> rows !! j else rows !! j.
Proof.
  unfold mixed. case_decide as Hj.
  - destruct (decide (j < length rows)).
    + rewrite lookup_app_l by (rewrite fmap_length, take_length; lia). rewrite list_lookup_fmap, lookup_take by done. done.
    + rewrite (lookup_ge_None_2 rows) by lia. apply lookup_ge_None_2. rewrite app_length, fmap_length, take_length, drop_length. lia.
  - destruct (decide (k < length rows)).
    + rewrite lookup_app_r by (rewrite fmap_length, take_length; lia). rewrite fmap_length, take_length, lookup_drop. f_equal. lia.
    + rewrite (lookup_ge_None_2 rows) by lia. apply lookup_ge_None_2. rewrite app_length, fmap_length, take_length, drop_length. lia.
Qed.
Lemma mixed_length k : length (mixed k) = length rows.
Proof. unfold mixed. rewrite app_length, fmap_length, take_length, drop_length. lia. Qed.
Lemma mixed_S k u ns : rows !! k = Some (u, ns) → mixed (S k) = <[k := (nm ind u, nm ind <$> ns)]> (mixed k).
Proof.
  intros Hk. apply list_eq. intros j. rewrite mixed_lookup. destruct (decide (j = k)) as [->|Hne].
  - rewrite decide_True by lia. rewrite list_lookup_insert; [by rewrite Hk|]. rewrite mixed_length. by apply lookup_lt_Some in Hk.
  - rewrite list_lookup_insert_ne, mixed_lookup by done. destruct (decide (j < S k)), (decide (j < k)); try done; lia.
Qed.
Lemma mixed_off k i : roff (mixed k) i = roff rows i.
Proof.
  unfold roff, off. rewrite <- !fmap_take.
  assert (∀ l l' : list (N * list N), Forall2 (λ r r', length r.2 = length r'.2) l l' →
    sum_list_with (λ r, 2 + length r.2) (enc <$> l) = sum_list_with (λ r, 2 + length r.2) (enc <$> l')) as Hs.
  { induction 1 as [|r r' l l' Hr _ IH]; [done|]. cbn. cbn in IH. rewrite Hr, IH. done. }
  apply Hs, Forall2_take, Forall2_lookup. intros j. rewrite mixed_lookup. case_decide.
  - destruct (rows !! j) as [[u ns]|]; cbn; constructor. cbn. by rewrite fmap_length.
  - destruct (rows !! j) as [[u ns]|]; constructor. done.
Qed.

Record norm_inv (k : nat) (s : norm_state) : Prop := {
  ni_packed : packed (enc <$> mixed k) (ns_contents s) last;
  ni_n2o : ∀ w v, ns_n2o s !! w = Some v ↔ ∃ j, j < k ∧ order !! j = Some v ∧ w = N.of_nat j;
  ni_o2n : ∀ v w, ns_o2n s !! v = Some w ↔ ∃ j, j < k ∧ order !! j = Some v ∧ w = N.of_nat j;
}.

Lemma nm_lookup j v : order !! j = Some v → nm ind v = N.of_nat j.
Proof.
  intros Hj. unfold nm. f_equal. assert (v ∈ order) as Hv by (by eapply elem_of_list_lookup_2).
  destruct (px_lookup _ _ _ Hp Hv) as [_ H]. eapply NoDup_lookup; [apply Hok|done|done].
Qed.

Lemma dg_norm_loop_spec fuel : ∀ k s, k < length rows → length rows - k ≤ fuel → norm_inv k s →
  ∃ s', dg_norm_loop fuel (roff rows k) k s = Ok s' ∧ norm_inv (length rows) s'.
Proof.
  induction fuel as [|fuel IH]; intros k s Hk Hf Hinv; [lia|]. cbn [dg_norm_loop].
  destruct (lookup_lt_is_Some_2 rows k Hk) as [[u ns] Hr].
  assert (order !! k = Some u) as Hou by (by rewrite list_lookup_fmap, Hr).
  assert ((enc <$> mixed k) !! k = Some (u, N.of_nat (length ns) :: ns)) as Hm.
  { rewrite list_lookup_fmap, mixed_lookup, decide_False, Hr by lia. done. }
  set (c := ns_contents s). pose proof (ni_packed _ _ Hinv) as Hpk. fold c in Hpk.
  destruct (pk_row _ _ _ Hpk k _ _ Hm) as (H1 & H2 & H3). fold (roff (mixed k) k) in *. rewrite mixed_off in H1, H2, H3.
  rewrite fmap_length, mixed_length in H2. fold (roff (mixed k) (S k)) in H2. rewrite mixed_off in H2.
  pose proof (H3 0 _ eq_refl) as H4. rewrite Nat.add_0_r in H4.
  pose proof (pk_row_le _ _ _ _ _ _ Hpk Hm) as Hle. fold (roff (mixed k) k) in Hle. rewrite mixed_off in Hle. cbn [length] in Hle.
  set (o := roff rows k) in *.
  rewrite H1. cbn [unwrap mbind res_bind]. rewrite H2. cbn [unwrap mbind res_bind]. rewrite H4. cbn [unwrap mbind res_bind].
  rewrite !Nat2N.id. rewrite u32_small by (change 4294967296%N with u32_mod; lia).
  assert (∀ i, i ≠ o → <[o := N.of_nat k]> c !! i = c !! i) as Hins by (intros i Hi; by apply list_lookup_insert_ne).
  rewrite (slice_ok (<[o := N.of_nat k]> c) (o + 3) (o + 3 + length ns) ns); [|done| |].
  2:{ intros j x Hj. rewrite Hins by lia. replace (o + 3 + j) with (o + 2 + S j) by lia. by apply H3. }
  2:{ rewrite insert_length. lia. }
  cbn [mbind res_bind].
  assert (∀ v w, <[u := N.of_nat k]> (ns_o2n s) !! v = Some w ↔ ∃ j, j < S k ∧ order !! j = Some v ∧ w = N.of_nat j) as Ho2n.
  { intros v w. destruct (decide (v = u)) as [->|Hne].
    - rewrite lookup_insert. split.
      + intros [= <-]. exists k. split_and!; [lia|done|done].
      + intros (j & Hj & Hj' & ->). assert (j = k) as ->; [|done]. eapply NoDup_lookup; [apply Hok|done|done].
    - rewrite lookup_insert_ne by done. rewrite (ni_o2n _ _ Hinv). split.
      + intros (j & ? & ? & ?). exists j. split_and!; [lia|done|done].
      + intros (j & Hj & Hj' & ->). exists j. split_and!; [|done|done]. destruct (decide (j = k)) as [->|]; [congruence|lia]. }
  assert (mapM (λ v, unwrap (<[u := N.of_nat k]> (ns_o2n s) !! v)) ns = Ok (nm ind <$> ns)) as ->.
  { assert (∀ v, v ∈ ns → <[u := N.of_nat k]> (ns_o2n s) !! v = Some (nm ind v)) as Hall.
    { intros v Hv. pose proof (ro_left _ Hok u ns) as Hb. destruct (Hb ltac:(by eapply elem_of_list_lookup_2) v Hv) as (i & j & Hi & Hj & Hij).
      unfold pos in *. assert (j = k) as -> by (eapply NoDup_lookup; [apply Hok|done|done]).
      apply Ho2n. exists i. split_and!; [lia|done|by apply nm_lookup]. }
    clear -Hall. induction ns as [|x ns IH]; [done|]. cbn [mapM]. rewrite Hall by set_solver. cbn [unwrap mbind res_bind].
    rewrite IH by set_solver. done. }
  cbn [mbind res_bind].
  assert (StronglySorted N.le (nm ind <$> ns)) as Hss.
  { assert (∀ i j x y, ns !! i = Some x → ns !! j = Some y → i < j → (nm ind x <= nm ind y)%N) as Hle'.
    { intros i j x y Hi Hj Hij. pose proof (ro_sorted _ Hok u ns) as Hb.
      specialize (Hb ltac:(by eapply elem_of_list_lookup_2) i j x y Hi Hj Hij).
      apply (px_before ind order _ _ Hp) in Hb. unfold nm. lia. }
    clear -Hle'. induction ns as [|x ns IH]; [constructor|]. cbn. constructor.
    - apply IH. intros i j a b Hi Hj Hij. apply (Hle' (S i) (S j)); [done|done|lia].
    - apply Forall_forall. intros y (z & -> & [j Hj]%elem_of_list_lookup)%elem_of_list_fmap. apply (Hle' 0 (S j)); [done|done|lia]. }
  rewrite (merge_sort_sorted_id _ Hss).
  set (c' := take (o + 3) (<[o := N.of_nat k]> c) ++ (nm ind <$> ns) ++ drop (o + 3 + length ns) (<[o := N.of_nat k]> c)).
  assert (length c' = length c) as Hlc'.
  { unfold c'. rewrite !app_length, take_length, fmap_length, drop_length, insert_length. lia. }
  assert (∀ i, i < o + 3 ∨ o + 3 + length ns ≤ i → c' !! i = <[o := N.of_nat k]> c !! i) as Hc'1.
  { intros i [Hi|Hi]; unfold c'.
    - rewrite lookup_app_l by (rewrite take_length, insert_length; lia). by apply lookup_take.
    - rewrite lookup_app_r by (rewrite take_length, insert_length; lia). rewrite take_length, insert_length.
      rewrite lookup_app_r by (rewrite fmap_length; lia). rewrite fmap_length, lookup_drop. f_equal. lia. }
  assert (∀ j x, (nm ind <$> ns) !! j = Some x → c' !! (o + 3 + j) = Some x) as Hc'2.
  { intros j x Hj. unfold c'. rewrite lookup_app_r by (rewrite take_length, insert_length; lia). rewrite take_length, insert_length.
    pose proof (lookup_lt_Some _ _ _ Hj). rewrite lookup_app_l by lia. rewrite <- Hj. f_equal. lia. }
  set (s' := NormState c' _ _).
  assert (norm_inv (S k) s') as Hinv'.
  { split; cbn [s' ns_contents ns_n2o ns_o2n].
    - rewrite (mixed_S _ _ _ Hr), list_fmap_insert. unfold enc at 1. cbn [fst snd].
      apply (packed_rewrite _ _ _ _ _ _ _ _ c' Hpk Hm); fold (roff (mixed k) k); rewrite ?mixed_off; fold o.
      + cbn. by rewrite !fmap_length.
      + done.
      + rewrite Hc'1 by lia. rewrite list_lookup_insert by lia. by rewrite (nm_lookup _ _ Hou).
      + intros [|j] x Hj; cbn in Hj.
        * injection Hj as <-. rewrite Nat.add_0_r, Hc'1, Hins by lia. by rewrite fmap_length.
        * replace (o + 2 + S j) with (o + 3 + j) by lia. by apply Hc'2.
      + intros i Hi Hi'. cbn [length] in Hi'. destruct (decide (i = o + 2)) as [->|].
        * rewrite Hc'1, Hins by lia. done.
        * rewrite Hc'1, Hins by lia. done.
    - intros w v. destruct (decide (w = N.of_nat k)) as [->|Hne].
      + rewrite lookup_insert. split.
        * intros [= <-]. exists k. split_and!; [lia|done|done].
        * intros (j & Hj & Hj' & Heq). assert (j = k) as -> by lia. congruence.
      + rewrite lookup_insert_ne by done. rewrite (ni_n2o _ _ Hinv). split.
        * intros (j & ? & ? & ?). exists j. split_and!; [lia|done|done].
        * intros (j & Hj & Hj' & ->). exists j. split_and!; [|done|done]. destruct (decide (j = k)) as [->|]; [done|lia].
    - exact Ho2n. }
  clearbody s'.
  destruct (Nat.eqb_spec (S k) (length rows)) as [Hlst|Hlst].
  - rewrite Nat.eqb_refl. exists s'. split; [done|]. by rewrite <- Hlst.
  - assert (roff rows (S k) ≠ o) as Hne.
    { pose proof (off_lt (enc <$> rows) k (S k)) as Hlt. rewrite fmap_length in Hlt. unfold o, roff. lia. }
    rewrite (proj2 (Nat.eqb_neq _ _)) by done. apply IH; [lia|lia|done].
Qed.

Lemma dg_normalize_spec : rows ≠ [] →
  ∃ n2o g', dg_normalize g = Ok (n2o, g') ∧ dg_rep (rename_row (nm ind) <$> rows) last g' ∧
    ∀ w v, n2o !! w = Some v ↔ ∃ j, order !! j = Some v ∧ w = N.of_nat j.
Proof.
  intros Hne. unfold dg_normalize.
  assert (0 < length rows) as Hl by (destruct rows; [done|cbn; lia]).
  destruct (dg_norm_loop_spec (S (length (dg_contents g))) 0 (NormState (dg_contents g) ∅ ∅) Hl) as (s & Hs & Hinv).
  { rewrite (pk_length _ _ _ (dr_packed _ _ _ Hrep)), fmap_length. fold (roff rows (length rows)). rewrite rows_words. lia. }
  { split; cbn.
    - unfold mixed. rewrite take_0, drop_0. apply Hrep.
    - intros w v. rewrite lookup_empty. split; [done|]. intros (j & ? & _). lia.
    - intros w v. rewrite lookup_empty. split; [done|]. intros (j & ? & _). lia. }
  change (roff rows 0) with 0 in Hs. rewrite Hs. cbn [mbind res_bind].
  assert (∀ v, v ∈ order → ns_o2n s !! v = Some (nm ind v)) as Ho2n.
  { intros v [j Hj]%elem_of_list_lookup. apply (ni_o2n _ _ Hinv). exists j. rewrite (nm_lookup _ _ Hj).
    split_and!; [|done|done]. apply lookup_lt_Some in Hj. by rewrite fmap_length in Hj. }
  assert (∀ x y, x ∈ order → y ∈ order → nm ind x = nm ind y → x = y) as Hinj.
  { intros x y Hx Hy Heq. unfold nm in Heq. apply Nat2N.inj in Heq. by eapply px_inj. }
  (* right neighbourhoods *)
  edestruct (fold_res_inv (λ (r : gmap N (gset N)) (p : N * gset N),
      X ← mapM (λ x, unwrap (ns_o2n s !! x)) (hash_iter 2 (p.2 : gset N));
      u ← unwrap (ns_o2n s !! p.1);
      Ok (<[u := collect_set X]> r))
    (λ pre r, ∀ w R', r !! w = Some R' ↔ ∃ u R, (u, R) ∈ pre ∧ w = nm ind u ∧ R' = collect_set (nm ind <$> hash_iter 2 R))
    (map_iter 1 (dg_right g)) ∅) as (right & -> & Hright).
  { intros w R'. rewrite lookup_empty. split; [done|]. intros (? & ? & H & _). set_solver. }
  { intros l1 [u R] l2 r Heq Hr. cbn [fst snd].
    assert ((u, R) ∈ map_iter 1 (dg_right g)) as Hin by (rewrite Heq; set_solver).
    apply elem_of_map_iter in Hin.
    assert (u ∈ order) as Hu by (apply (dr_right_dom _ _ _ Hrep); eauto).
    assert (mapM (λ x, unwrap (ns_o2n s !! x)) (hash_iter 2 R) = Ok (nm ind <$> hash_iter 2 R)) as ->.
    { assert (∀ x, x ∈ hash_iter 2 R → x ∈ order) as Hall.
      { intros x. rewrite elem_of_hash_iter, (dr_right _ _ _ Hrep _ _ Hin). intros H%row_lt_before; [|exact (ro_weak _ Hok)].
        by apply before_cons_inv in H as [_ ?]. }
      clear -Hall Ho2n. induction (hash_iter 2 R) as [|x l IH]; [done|]. cbn [mapM]. rewrite Ho2n by (apply Hall; set_solver).
      cbn [unwrap mbind res_bind]. rewrite IH by set_solver. done. }
    cbn [mbind res_bind]. rewrite Ho2n by done. cbn [unwrap mbind res_bind]. eexists; split; [done|].
    intros w R'. destruct (decide (w = nm ind u)) as [->|Hw].
    - rewrite lookup_insert. split.
      + intros [= <-]. exists u, R. split_and!; [set_solver|done|done].
      + intros (u' & R0 & [Hin'|[= -> ->]%elem_of_list_singleton]%elem_of_app & Hw & ->); [|done].
        assert ((u', R0) ∈ map_iter 1 (dg_right g)) as Hin2 by (rewrite Heq; set_solver).
        apply elem_of_map_iter in Hin2.
        assert (u' = u) as ->. { apply Hinj; [|done|done]. apply (dr_right_dom _ _ _ Hrep). eauto. }
        congruence.
    - rewrite lookup_insert_ne by done. rewrite Hr. split.
      + intros (u' & R0 & ? & ? & ?). exists u', R0. split_and!; [set_solver|done|done].
      + intros (u' & R0 & [Hin'|[= -> ->]%elem_of_list_singleton]%elem_of_app & Hw' & ->); [|done]. by exists u', R0. }
  cbn [mbind res_bind].
  edestruct (fold_res_inv (λ (m : gmap N nat) (p : N * nat),
      u ← unwrap (ns_o2n s !! p.1); Ok (<[u := p.2]> m))
    (λ pre m, ∀ w i, m !! w = Some i ↔ ∃ u, (u, i) ∈ pre ∧ w = nm ind u)
    (map_iter 3 (dg_indices g)) ∅) as (ind' & -> & Hind).
  { intros w R'. rewrite lookup_empty. split; [done|]. intros (? & H & _). set_solver. }
  { intros l1 [u i] l2 r Heq Hr. cbn [fst snd].
    assert (∀ u i, (u, i) ∈ map_iter 3 (dg_indices g) → u ∈ order) as Hel.
    { intros u' i' Hin%elem_of_map_iter. apply (dg_ind_elem rows last g Hrep). eauto. }
    assert ((u, i) ∈ map_iter 3 (dg_indices g)) as Hin by (rewrite Heq; set_solver).
    rewrite Ho2n by (by eapply Hel). cbn [unwrap mbind res_bind]. eexists; split; [done|].
    intros w i'. destruct (decide (w = nm ind u)) as [->|Hw].
    - rewrite lookup_insert. split.
      + intros [= <-]. exists u. split; [set_solver|done].
      + intros (u' & [Hin'|[= -> ->]%elem_of_list_singleton]%elem_of_app & Hw); [|done].
        assert ((u', i') ∈ map_iter 3 (dg_indices g)) as Hin2 by (rewrite Heq; set_solver).
        assert (u' = u) as ->. { apply Hinj; [by eapply Hel|by eapply Hel|done]. }
        apply elem_of_map_iter in Hin, Hin2. congruence.
    - rewrite lookup_insert_ne by done. rewrite Hr. split.
      + intros (u' & ? & ?). exists u'. split; [set_solver|done].
      + intros (u' & [Hin'|[= -> ->]%elem_of_list_singleton]%elem_of_app & Hw'); [|done]. by exists u'. }
  cbn [mbind res_bind]. eexists _, _. split; [done|]. split.
  - pose proof (ni_packed _ _ Hinv) as Hpk.
    assert (mixed (length rows) = rename_row (nm ind) <$> rows) as Hmx.
    { unfold mixed. rewrite take_ge, drop_ge by lia. by rewrite app_nil_r. }
    rewrite Hmx in Hpk.
    split; cbn [dg_contents dg_indices dg_right dg_m].
    + done.
    + intros w i. rewrite Hind, rename_order. split.
      * intros (u & Hin%elem_of_map_iter & ->). apply (dr_ind _ _ _ Hrep) in Hin as (k & Hk & ->). exists k.
        rewrite list_lookup_fmap, Hk. split; [done|]. rewrite <- Hmx. by rewrite mixed_off.
      * intros (k & Hk & ->). rewrite list_lookup_fmap in Hk. destruct (order !! k) as [u|] eqn:Eu; [|done]. injection Hk as <-.
        exists u. split; [|done]. apply elem_of_map_iter, (dr_ind _ _ _ Hrep). exists k. split; [done|]. rewrite <- Hmx. by rewrite mixed_off.
    + intros w. rewrite rename_order, elem_of_list_fmap. split.
      * intros [R' (u & R & Hin%elem_of_map_iter & -> & _)%Hright]. exists u. split; [done|]. apply (dr_right_dom _ _ _ Hrep). eauto.
      * intros (u & -> & Hu). apply (dr_right_dom _ _ _ Hrep) in Hu as [R HR]. eexists. apply Hright. exists u, R.
        split_and!; [by apply elem_of_map_iter|done|done].
    + intros w R' (u & R & Hin%elem_of_map_iter & -> & ->)%Hright v. unfold collect_set. rewrite elem_of_list_to_set, elem_of_list_fmap.
      assert (u ∈ order) as Hu by (apply (dr_right_dom _ _ _ Hrep); eauto). split.
      * intros (x & -> & Hx). rewrite elem_of_hash_iter, (dr_right _ _ _ Hrep _ _ Hin) in Hx. apply rename_lt; try done.
        apply row_lt_before in Hx; [|exact (ro_weak _ Hok)]. by apply before_cons_inv in Hx as [_ ?].
      * intros (a & b & Ha & -> & Hlt)%rename_lt_inv. exists b. split; [done|]. rewrite elem_of_hash_iter, (dr_right _ _ _ Hrep _ _ Hin).
        assert (a = u) as ->; [|done]. apply Hinj; [|done|done]. apply row_lt_before in Hlt; [|exact (ro_weak _ Hok)]. by apply before_cons_inv in Hlt as [? _].
    + rewrite (dr_m _ _ _ Hrep). clear. induction rows as [|r l IH]; [done|]. cbn. cbn in IH. by rewrite fmap_length, IH.
  - intros w v. rewrite (ni_n2o _ _ Hinv). split.
    + intros (j & _ & ? & ?). by exists j.
    + intros (j & Hj & ?). exists j. split_and!; [|done|done]. apply lookup_lt_Some in Hj. by rewrite fmap_length in Hj.
Qed.

Lemma nm_order : nm ind <$> order = N.of_nat <$> seq 0 (length rows).
Proof.
  apply list_eq. intros j. rewrite !list_lookup_fmap. destruct (decide (j < length rows)) as [Hj|Hj].
  - rewrite lookup_seq_lt by done. destruct (lookup_lt_is_Some_2 rows j Hj) as [[u ns] Hr]. rewrite Hr. cbn. f_equal.
    apply nm_lookup. by rewrite list_lookup_fmap, Hr.
  - rewrite lookup_seq_ge by lia. by rewrite lookup_ge_None_2 by lia.
Qed.
End normalize.
