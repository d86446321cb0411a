(** Proofs about the packed ReachGraph. *)
From Verif Require Import Base Spec M_Graph M_Iterators M_EditGraph M_Algorithms M_OrdGraph M_DegenGraph M_Linear M_ReachGraph
  S_Graph S_Linear P_EditGraph P_Generators P_Iterators P_Degeneracy P_Operations P_OrdGraph P_OrdGraph2 P_Packed P_DegenGraph.

(** ** Index words *)
Lemma add_u32_ok a b : (a + b < u32_mod)%N → add_u32 a b = Ok (a + b)%N.
Proof. intros Hl. unfold add_u32. by rewrite (proj2 (N.ltb_lt _ _)). Qed.

Lemma rb_words_spec (i0 D offset dist : nat) : ∀ fuel c curr,
  dist - curr ≤ fuel → length c = i0 + S curr → dist ≤ S D →
  (N.of_nat (i0 + D + 2 + offset) < u32_mod)%N →
  rb_words fuel (N.of_nat i0) (N.of_nat (i0 + D + 2)) offset dist (c, curr, N.of_nat (S curr)) =
  Ok (c ++ replicate (dist - curr) (N.of_nat (i0 + D + 2 + offset)), Nat.max curr dist, N.of_nat (S (Nat.max curr dist))).
Proof.
  induction fuel as [|fuel IH]; intros c curr Hf Hc Hd Hb; cbn [rb_words].
  - rewrite (proj2 (Nat.ltb_ge _ _)) by lia. replace (dist - curr) with 0 by lia. cbn. rewrite app_nil_r.
    by replace (Nat.max curr dist) with curr by lia.
  - destruct (Nat.ltb_spec curr dist) as [Hlt|Hge].
    2:{ replace (dist - curr) with 0 by lia. cbn. rewrite app_nil_r. by replace (Nat.max curr dist) with curr by lia. }
    rewrite u32_small by (change 4294967296%N with u32_mod; lia).
    rewrite add_u32_ok by lia. cbn [mbind res_bind].
    rewrite add_u32_ok by lia. cbn [mbind res_bind].
    rewrite app_length. cbn [length]. replace (length c + 1 - 1) with (length c) by lia.
    rewrite u32_small by (change 4294967296%N with u32_mod; lia).
    rewrite (proj2 (N.eqb_eq _ _)) by lia. cbn [assert_res mbind res_bind].
    replace (N.of_nat (S curr) + 1)%N with (N.of_nat (S (S curr))) by lia.
    rewrite IH; [|lia|rewrite app_length; cbn; lia|done|done].
    rewrite <- app_assoc. replace (dist - curr) with (S (dist - S curr)) by lia. cbn [replicate app].
    replace (Nat.max (S curr) dist) with (Nat.max curr dist) by lia.
    do 5 f_equal. lia.
Qed.

Definition cnt (l : list nat) (d : nat) : nat := length (filter (λ x, x ≤ d) l).

Lemma cnt_app l l' d : cnt (l ++ l') d = cnt l d + cnt l' d.
Proof. unfold cnt. by rewrite filter_app, app_length. Qed.
Lemma cnt_all l d : (∀ x, x ∈ l → x ≤ d) → cnt l d = length l.
Proof.
  intros Hl. unfold cnt. induction l as [|x l IH]; [done|]. rewrite filter_cons_True by (apply Hl; by left). cbn.
  rewrite IH; [done|]. intros y Hy. apply Hl. by right.
Qed.
Lemma cnt_none l d : (∀ x, x ∈ l → d < x) → cnt l d = 0.
Proof.
  intros Hl. unfold cnt. induction l as [|x l IH]; [done|]. rewrite filter_cons_False.
  - apply IH. intros y Hy. apply Hl. by right.
  - intros Hx. specialize (Hl x). assert (x ∈ x :: l) as H%Hl by (by left). lia.
Qed.
Lemma seq_app' a n m : seq a (n + m) = seq a n ++ seq (a + n) m.
Proof. apply seq_app. Qed.

(** The whole loop over the sorted distances and the guard. *)
Lemma rb_words_fold (i0 D : nat) (dists : list nat) (c : list N) :
  StronglySorted le dists → (∀ d, d ∈ dists → 1 ≤ d ≤ D) → length c = i0 + 2 →
  (N.of_nat (i0 + D + 2 + length dists) < u32_mod)%N →
  fold_res (λ st p, rb_words p.2 (N.of_nat i0) (N.of_nat (i0 + D + 2)) p.1 p.2 st)
    (imap pair (dists ++ [S D])) (c, 1, 2%N) =
  Ok (c ++ ((λ d, N.of_nat (i0 + D + 2 + cnt dists d)) <$> seq 1 D), S D, N.of_nat (S (S D))).
Proof.
  intros Hs Hd Hc Hb. rewrite imap_app, fold_res_app. cbn [length imap Nat.add].
  set (inv := λ k (st : list N * nat * N), ∃ curr, 1 ≤ curr ≤ S D ∧ (∀ x, x ∈ take k dists → x ≤ curr) ∧
    (∀ x, x ∈ drop k dists → curr ≤ x) ∧
    st = (c ++ ((λ d, N.of_nat (i0 + D + 2 + cnt dists d)) <$> seq 1 (curr - 1)), curr, N.of_nat (S curr))).
  assert (∀ k x st, k ≤ length dists → inv k st → (dists ++ [S D]) !! k = Some x →
    ∃ curr', rb_words x (N.of_nat i0) (N.of_nat (i0 + D + 2)) k x st =
      Ok (c ++ ((λ d, N.of_nat (i0 + D + 2 + cnt dists d)) <$> seq 1 (curr' - 1)), curr', N.of_nat (S curr')) ∧
      curr' = x) as Hstep.
  { intros k x st Hk (curr & Hcurr & Ht & Hdr & ->) Hx.
    assert (curr ≤ x) as Hcx.
    { destruct (decide (k = length dists)) as [->|Hne].
      - rewrite list_lookup_middle in Hx by done. injection Hx as <-. lia.
      - rewrite lookup_app_l in Hx by lia. apply Hdr. eapply (elem_of_list_lookup_2 _ 0). by rewrite lookup_drop, Nat.add_0_r. }
    assert (x ≤ S D) as HxD.
    { apply elem_of_list_lookup_2, elem_of_app in Hx as [Hx|Hx]; [apply Hd in Hx; lia|]. apply elem_of_list_singleton in Hx. lia. }
    assert (∀ y, y ∈ drop k dists → x ≤ y) as Hdr2.
    { intros y Hy. destruct (decide (k = length dists)) as [->|Hne].
      - rewrite drop_all in Hy. by apply elem_of_nil in Hy.
      - rewrite lookup_app_l in Hx by lia. rewrite (drop_S _ _ _ Hx) in Hy. apply elem_of_cons in Hy as [->|Hy]; [done|].
        rewrite <- (take_drop_middle _ _ _ Hx) in Hs.
        apply elem_of_list_lookup in Hy as [j Hj].
        assert (StronglySorted le (x :: drop (S k) dists)) as Hss.
        { clear -Hs. induction (take k dists) as [|a l IH]; [done|]. apply IH. by inversion Hs. }
        inversion Hss as [|? ? _ Hall]. rewrite Forall_forall in Hall. apply Hall. by eapply elem_of_list_lookup_2. }
    exists x. split; [|done]. rewrite rb_words_spec; [|lia| |done|lia].
    2:{ rewrite app_length, fmap_length, seq_length. lia. }
    replace (Nat.max curr x) with x by lia. do 3 f_equal. rewrite <- app_assoc. f_equal.
    replace (x - 1) with ((curr - 1) + (x - curr)) by lia. rewrite seq_app', fmap_app. f_equal.
    replace (1 + (curr - 1)) with curr by lia.
    apply list_eq. intros i. rewrite list_lookup_fmap. destruct (decide (i < x - curr)) as [Hi|Hi].
    - rewrite lookup_seq_lt by done. rewrite lookup_replicate_2 by done. cbn. do 2 f_equal.
      rewrite <- (take_drop k dists), cnt_app, cnt_all, cnt_none.
      + rewrite take_length. lia.
      + intros y Hy%Hdr2. lia.
      + intros y Hy%Ht. lia.
    - rewrite lookup_seq_ge by lia. cbn. apply lookup_ge_None_2. rewrite replicate_length. lia. }
  destruct (fold_res_inv (λ st p, rb_words p.2 (N.of_nat i0) (N.of_nat (i0 + D + 2)) p.1 p.2 st)
    (λ l1 st, inv (length l1) st) (imap pair dists) (c, 1, 2%N)) as (st & -> & Hst).
  - exists 1. cbn. rewrite app_nil_r. split_and!; [lia|lia| | |].
    + intros x Hx. apply elem_of_nil in Hx. done.
    + rewrite drop_0. intros x Hx%Hd. lia.
    + done.
  - intros l1 [o x] l2 st Hl Hinv. cbn [fst snd].
    assert (dists !! length l1 = Some x ∧ o = length l1) as [Hx ->].
    { assert (imap pair dists !! length l1 = Some (o, x)) as Hl'; [rewrite Hl; by rewrite list_lookup_middle|].
      rewrite list_lookup_imap in Hl'. destruct (dists !! length l1); cbn in Hl'; [|done]. injection Hl' as -> ->. done. }
    pose proof (lookup_lt_Some _ _ _ Hx) as Hlt.
    destruct (Hstep (length l1) x st) as (curr' & Hr & ->); [lia|done|by rewrite lookup_app_l|].
    eexists; split; [exact Hr|]. exists x. apply elem_of_list_lookup_2 in Hx as Hx'. apply Hd in Hx' as HxD.
    rewrite app_length. cbn [length]. rewrite Nat.add_1_r. split_and!; [lia|lia| | |done].
    + assert (StronglySorted le (take (S (length l1)) dists)) as Hss.
      { clear -Hs. revert dists Hs. induction (S (length l1)) as [|n IH]; intros dists Hs; [constructor|].
        destruct dists as [|a dists]; [constructor|]. cbn. inversion Hs as [|? ? Hs' Ha]; subst. constructor; [by apply IH|].
        rewrite Forall_forall in *. intros y Hy. apply Ha. apply elem_of_take in Hy as (i & Hi & _). by eapply elem_of_list_lookup_2. }
      rewrite (take_S_r _ _ _ Hx) in *. intros y Hy. apply elem_of_app in Hy as [Hy|Hy]; [|apply elem_of_list_singleton in Hy; lia].
      clear -Hss Hy. induction (take (length l1) dists) as [|a l IH]; [by apply elem_of_nil in Hy|].
      inversion Hss as [|? ? Hs' Ha]; subst. apply elem_of_cons in Hy as [->|Hy]; [|by apply IH].
      rewrite Forall_forall in Ha. apply Ha. apply elem_of_app. right. by apply elem_of_list_singleton.
    + intros y Hy. rewrite <- (take_drop_middle _ _ _ Hx) in Hs.
      assert (StronglySorted le (x :: drop (S (length l1)) dists)) as Hss.
      { clear -Hs. induction (take (length l1) dists) as [|a l IH]; [done|]. apply IH. by inversion Hs. }
      inversion Hss as [|? ? _ Hall]. rewrite Forall_forall in Hall. by apply Hall.
  - rewrite imap_length in Hst. cbn [mbind res_bind fold_res fst snd].
    destruct (Hstep (length dists) (S D) st) as (curr' & Hr & ->); [lia|done|by rewrite list_lookup_middle|].
    rewrite Nat.add_0_r, Hr. cbn [mbind res_bind]. by rewrite Nat.sub_1_r.
Qed.

(** ** Grouping the sorted keys by distance *)
Definition kdists (keys : list (nat * nat * N)) : list nat := (λ t : nat * nat * N, t.1.1) <$> keys.
Definition kverts (keys : list (nat * nat * N)) : list N := (λ t : nat * nat * N, t.2) <$> keys.
Definition ksegs (D : nat) (keys : list (nat * nat * N)) : list (list N) :=
  (λ d, kverts (filter (λ t : nat * nat * N, t.1.1 = d) keys)) <$> seq 1 D.

Global Instance triple_le_total : Total triple_le.
Proof. intros [[a b] c] [[a' b'] c']. unfold triple_le. cbn. destruct (N.le_gt_cases c c'); lia. Qed.
Global Instance triple_le_trans : Transitive triple_le.
Proof. intros [[a b] c] [[a' b'] c'] [[a2 b2] c2]. unfold triple_le. cbn. lia. Qed.

Lemma filter_none {A} (P : A → Prop) `{∀ x, Decision (P x)} (l : list A) : (∀ x, x ∈ l → ¬ P x) → filter P l = [].
Proof.
  intros Hl. induction l as [|x l IH]; [done|]. rewrite filter_cons_False by (apply Hl; by left). apply IH.
  intros y Hy. apply Hl. by right.
Qed.
Lemma filter_all {A} (P : A → Prop) `{∀ x, Decision (P x)} (l : list A) : (∀ x, x ∈ l → P x) → filter P l = l.
Proof.
  intros Hl. induction l as [|x l IH]; [done|]. rewrite filter_cons_True by (apply Hl; by left). f_equal. apply IH.
  intros y Hy. apply Hl. by right.
Qed.

Lemma keys_split (keys : list (nat * nat * N)) k : StronglySorted triple_le keys →
  filter (λ t : nat * nat * N, t.1.1 ≤ S k) keys =
  filter (λ t : nat * nat * N, t.1.1 ≤ k) keys ++ filter (λ t : nat * nat * N, t.1.1 = S k) keys.
Proof.
  induction 1 as [|x l Hl IH Hx]; [done|]. rewrite Forall_forall in Hx.
  destruct (decide (x.1.1 ≤ k)) as [H1|H1].
  - rewrite filter_cons_True by lia. rewrite (filter_cons_True _ x) by lia. rewrite (filter_cons_False _ x) by lia. cbn. by rewrite IH.
  - assert (filter (λ t : nat * nat * N, t.1.1 ≤ k) l = []) as Hn.
    { apply filter_none. intros y Hy%Hx. unfold triple_le in Hy. lia. }
    rewrite (filter_cons_False (λ t : nat * nat * N, t.1.1 ≤ k) x), Hn by lia. rewrite Hn in IH. cbn [app] in *.
    destruct (decide (x.1.1 = S k)) as [H2|H2].
    + rewrite filter_cons_True by lia. rewrite (filter_cons_True _ x) by lia. by rewrite IH.
    + rewrite filter_cons_False by lia. rewrite (filter_cons_False _ x) by lia. by rewrite IH.
Qed.

Lemma ksegs_length D keys : length (ksegs D keys) = D.
Proof. unfold ksegs. by rewrite fmap_length, seq_length. Qed.
Lemma ksegs_lookup D keys d : 1 ≤ d ≤ D →
  ksegs D keys !! (d - 1) = Some (kverts (filter (λ t : nat * nat * N, t.1.1 = d) keys)).
Proof. intros Hd. unfold ksegs. rewrite list_lookup_fmap, lookup_seq_lt by lia. cbn. by replace (S (d - 1)) with d by lia. Qed.

Lemma ksegs_concat D keys k : StronglySorted triple_le keys → (∀ t, t ∈ keys → 1 ≤ t.1.1) → k ≤ D →
  concat (take k (ksegs D keys)) = kverts (filter (λ t : nat * nat * N, t.1.1 ≤ k) keys).
Proof.
  intros Hs H1. induction k as [|k IH]; intros Hk.
  - rewrite filter_none; [done|]. intros t Ht%H1. lia.
  - pose proof (ksegs_lookup D keys (S k)) as Hl. replace (S k - 1) with k in Hl by lia.
    rewrite (take_S_r _ _ _ (Hl ltac:(lia))), concat_app, IH by lia. cbn [concat]. rewrite app_nil_r.
    rewrite keys_split by done. unfold kverts. by rewrite fmap_app.
Qed.
Lemma kcnt keys k : cnt (kdists keys) k = length (filter (λ t : nat * nat * N, t.1.1 ≤ k) keys).
Proof.
  unfold cnt, kdists. induction keys as [|t keys IH]; [done|]. rewrite fmap_cons, !filter_cons.
  destruct (decide (t.1.1 ≤ k)); cbn; by rewrite IH.
Qed.
Lemma kdists_sorted keys : StronglySorted triple_le keys → StronglySorted le (kdists keys).
Proof.
  induction 1 as [|x l Hl IH Hx]; [constructor|]. cbn. constructor; [done|]. rewrite Forall_forall in Hx. rewrite Forall_forall.
  intros d (t & -> & Ht)%elem_of_list_fmap. apply Hx in Ht. unfold triple_le in Ht. lia.
Qed.

(** ** Representation *)
Definition rwords (D o : nat) (segs : list (list N)) : list N :=
  (λ d, N.of_nat (o + D + 2 + length (concat (take d segs)))) <$> seq 1 D.
Definition rbody (D o : nat) (segs : list (list N)) : list N := rwords D o segs ++ concat segs.

Record rg_rep (D : nat) (arows : list (N * list (list N))) (rows : list (N * list N)) (last : option N)
    (ind : gmap N nat) (c : list N) : Prop := {
  rr_packed : packed rows c last;
  rr_len : length rows = length arows;
  rr_rows : ∀ i u segs, arows !! i = Some (u, segs) → length segs = D ∧ rows !! i = Some (u, rbody D (off rows i) segs);
  rr_ind : ∀ u i, ind !! u = Some i ↔ ∃ k, arows.*1 !! k = Some u ∧ i = off rows k;
}.

Lemma rg_rep_fst D arows rows last ind c : rg_rep D arows rows last ind c → rows.*1 = arows.*1.
Proof.
  intros H. apply list_eq. intros i. rewrite !list_lookup_fmap. destruct (arows !! i) as [[u segs]|] eqn:Hi.
  - destruct (rr_rows _ _ _ _ _ _ H _ _ _ Hi) as [_ ->]. done.
  - apply lookup_ge_None in Hi. rewrite <- (rr_len _ _ _ _ _ _ H) in Hi. by rewrite (proj2 (lookup_ge_None _ _) Hi).
Qed.

Lemma rg_rep_nil D : rg_rep D [] [] None ∅ [].
Proof. split; [apply packed_nil|done|done|]. intros u i. rewrite lookup_empty. split; [done|]. intros (k & Hk & _). done. Qed.

Section read.
Context (D : nat) (arows : list (N * list (list N))) (rows : list (N * list N)) (last : option N) (g : reachgraph).
Context (H : rg_rep D arows rows last (rg_indices g) (rg_contents g)).

Lemma rr_reachables_at i u segs : arows !! i = Some (u, segs) →
  ∃ bounds, rg_reachables_at D g (off rows i) = Ok (Reachables u segs bounds) ∧ length bounds = D ∧
    ∀ k seg, segs !! k = Some seg → ∃ lo hi, bounds !! k = Some (lo, hi) ∧ slice (rg_contents g) lo hi = Ok seg.
Proof.
  intros Hi. destruct (rr_rows _ _ _ _ _ _ H _ _ _ Hi) as [Hlen Hr].
  destruct (pk_row _ _ _ (rr_packed _ _ _ _ _ _ H) _ _ _ Hr) as (H1 & _ & _).
  unfold rg_reachables_at. rewrite H1. cbn [unwrap mbind res_bind].
  assert (length (rwords D (off rows i) segs) = D) as HwD by (unfold rwords; by rewrite fmap_length, seq_length).
  replace (off rows i + 2) with (off rows i + 2 + 0) by lia.
  replace (S (off rows i + D + 1)) with (off rows i + 2 + D) by lia.
  rewrite (packed_slice _ _ _ _ _ _ _ _ (rr_packed _ _ _ _ _ _ H) Hr); [|lia|].
  2:{ unfold rbody. rewrite app_length. lia. }
  rewrite Nat.sub_0_r, drop_0. unfold rbody. rewrite take_app_alt by done. cbn [mbind res_bind].
  match goal with |- context [fold_res ?f _ _] => edestruct (fold_res_inv f
      (λ l1 (st : nat * list (list N) * list (nat * nat)),
         st.1.1 = off rows i + D + 2 + length (concat (take (length l1) segs)) ∧ st.1.2 = take (length l1) segs ∧
         length st.2 = length l1 ∧ ∀ k seg, k < length l1 → segs !! k = Some seg →
           ∃ lo hi, st.2 !! k = Some (lo, hi) ∧ slice (rg_contents g) lo hi = Ok seg)
      (rwords D (off rows i) segs) (off rows i + D + 2, [], [])) as (st & -> & Hst1 & Hst2 & Hst3 & Hst4) end.
  - cbn. split_and!; [rewrite take_0; cbn; lia|by rewrite take_0|done|]. intros k seg Hk. lia.
  - intros l1 w l2 [[lo ss] bs] Hl (Hlo & Hss & Hbs & Hb). cbn [fst snd] in *.
    assert (length l1 < D) as HlD by (rewrite <- HwD, Hl, app_length; cbn; lia).
    assert (w = N.of_nat (off rows i + D + 2 + length (concat (take (S (length l1)) segs)))) as ->.
    { assert (rwords D (off rows i) segs !! length l1 = Some w) as Hw; [rewrite Hl; by rewrite list_lookup_middle|].
      unfold rwords in Hw. rewrite list_lookup_fmap, lookup_seq_lt in Hw by done. cbn [fmap option_fmap option_map] in Hw.
      by injection Hw as <-. }
    rewrite Nat2N.id. destruct (lookup_lt_is_Some_2 segs (length l1)) as [seg Hseg]; [lia|].
    assert (length (concat (take (S (length l1)) segs)) = length (concat (take (length l1) segs)) + length seg) as Hcl.
    { rewrite (take_S_r _ _ _ Hseg), concat_app, app_length. cbn. rewrite app_nil_r. lia. }
    assert (slice (rg_contents g) lo (off rows i + D + 2 + length (concat (take (S (length l1)) segs))) = Ok seg) as Hsl.
    { rewrite Hlo. replace (off rows i + D + 2 + length (concat (take (length l1) segs)))
        with (off rows i + 2 + (D + length (concat (take (length l1) segs)))) by lia.
      replace (off rows i + D + 2 + length (concat (take (S (length l1)) segs)))
        with (off rows i + 2 + (D + length (concat (take (S (length l1)) segs)))) by lia.
      assert (concat segs = concat (take (length l1) segs) ++ seg ++ concat (drop (S (length l1)) segs)) as Hcs.
      { rewrite <- (take_drop_middle _ _ _ Hseg) at 1. by rewrite concat_app. }
      rewrite (packed_slice _ _ _ _ _ _ _ _ (rr_packed _ _ _ _ _ _ H) Hr); [|lia|].
      2:{ unfold rbody. rewrite app_length, HwD, Hcs, !app_length. lia. }
      rewrite Hcl. replace (D + _ - _) with (length seg) by lia.
      unfold rbody. rewrite drop_app_ge by lia. rewrite HwD.
      replace (D + length (concat (take (length l1) segs)) - D) with (length (concat (take (length l1) segs))) by lia.
      rewrite Hcs, drop_app. by rewrite take_app. }
    rewrite Hsl. cbn [mbind res_bind]. eexists; split; [done|]. rewrite app_length. cbn [fst snd length].
    rewrite Nat.add_1_r. split_and!; [done| | |].
    + by rewrite Hss, (take_S_r _ _ _ Hseg).
    + rewrite app_length. cbn. lia.
    + intros k seg' Hk Hseg'. destruct (decide (k = length l1)) as [->|Hne].
      * eexists _, _. split; [by apply list_lookup_middle|]. congruence.
      * destruct (Hb k seg') as (lo' & hi' & Hb1 & Hb2); [lia|done|]. exists lo', hi'. split; [|done]. by apply lookup_app_l_Some.
  - rewrite HwD in *. rewrite take_ge in Hst2 by lia. cbn [mbind res_bind].
    rewrite Hst2, Hlen, Nat.eqb_refl. cbn [assert_res mbind res_bind]. rewrite Hst3, Nat.eqb_refl. cbn [assert_res mbind res_bind].
    exists st.2. split_and!; [done|done|]. intros k seg Hk. apply Hst4; [|done]. apply lookup_lt_Some in Hk. lia.
Qed.

Lemma rr_index i u : arows.*1 !! i = Some u → rg_index_of g u = Ok (off rows i).
Proof. intros Hi. unfold rg_index_of. rewrite (proj2 (rr_ind _ _ _ _ _ _ H u (off rows i))); [done|eauto]. Qed.

Lemma rr_fst i u segs : arows !! i = Some (u, segs) → arows.*1 !! i = Some u.
Proof. intros Hi. by rewrite list_lookup_fmap, Hi. Qed.

Lemma rr_next i u segs : arows !! i = Some (u, segs) →
  rg_next_reachables D g u =
  if S i =? length arows then Ok None else x ← rg_reachables_at D g (off rows (S i)); Ok (Some x).
Proof.
  intros Hi. destruct (rr_rows _ _ _ _ _ _ H _ _ _ Hi) as [Hlen Hr].
  destruct (pk_row _ _ _ (rr_packed _ _ _ _ _ _ H) _ _ _ Hr) as (H1 & H2 & _).
  unfold rg_next_reachables. rewrite (rr_index i u) by (by eapply rr_fst). cbn [mbind res_bind]. rewrite H1. cbn [unwrap mbind res_bind].
  rewrite bool_decide_eq_true_2 by done. cbn [assert_res mbind res_bind]. rewrite H2. cbn [unwrap mbind res_bind].
  rewrite (rr_len _ _ _ _ _ _ H), Nat2N.id. destruct (Nat.eqb_spec (S i) (length arows)) as [Hl|Hl].
  - by rewrite Nat.eqb_refl.
  - rewrite (proj2 (Nat.eqb_neq _ _)); [done|]. rewrite (off_S _ _ _ _ Hr). lia.
Qed.

Lemma rr_last_word i u segs : 1 ≤ D → arows !! i = Some (u, segs) →
  rg_contents g !! (off rows i + D + 1) = Some (N.of_nat (off rows i + D + 2 + length (concat segs))).
Proof.
  intros HD Hi. destruct (rr_rows _ _ _ _ _ _ H _ _ _ Hi) as [Hlen Hr].
  pose proof (pk_row _ _ _ (rr_packed _ _ _ _ _ _ H) _ _ _ Hr) as (H1 & H2 & H3).
  replace (off rows i + D + 1) with (off rows i + 2 + (D - 1)) by lia. apply H3.
  unfold rbody. apply lookup_app_l_Some. unfold rwords. rewrite list_lookup_fmap, lookup_seq_lt by lia.
  cbn [fmap option_fmap option_map]. rewrite take_ge by lia. done.
Qed.

Lemma rr_body_slice i u segs : 1 ≤ D → arows !! i = Some (u, segs) →
  slice (rg_contents g) (off rows i + D + 2) (off rows i + D + 2 + length (concat segs)) = Ok (concat segs).
Proof.
  intros HD Hi. destruct (rr_rows _ _ _ _ _ _ H _ _ _ Hi) as [Hlen Hr].
  assert (length (rwords D (off rows i) segs) = D) as HwD by (unfold rwords; by rewrite fmap_length, seq_length).
  replace (off rows i + D + 2 + length (concat segs)) with (off rows i + 2 + (D + length (concat segs))) by lia.
  replace (off rows i + D + 2) with (off rows i + 2 + D) by lia.
  rewrite (packed_slice _ _ _ _ _ _ _ _ (rr_packed _ _ _ _ _ _ H) Hr); [|lia|].
  - unfold rbody. rewrite drop_app_alt by done. rewrite take_ge; [done|lia].
  - unfold rbody. rewrite app_length. lia.
Qed.

Lemma rr_all i u segs : 1 ≤ D → arows !! i = Some (u, segs) → rg_reachables_all D g u = Ok (concat segs).
Proof.
  intros HD Hi. destruct (rr_rows _ _ _ _ _ _ H _ _ _ Hi) as [Hlen Hr].
  pose proof (pk_row _ _ _ (rr_packed _ _ _ _ _ _ H) _ _ _ Hr) as (H1 & H2 & H3).
  unfold rg_reachables_all. rewrite (rr_index i u) by (by eapply rr_fst). cbn [mbind res_bind]. rewrite H1. cbn [unwrap mbind res_bind].
  rewrite bool_decide_eq_true_2 by done. cbn [assert_res mbind res_bind].
  replace (off rows i + D + 2 - 1) with (off rows i + D + 1) by lia.
  rewrite (rr_last_word i u segs HD Hi). cbn [unwrap mbind res_bind]. rewrite Nat2N.id. by eapply rr_body_slice.
Qed.

Lemma rr_segment i u segs : 1 ≤ D → arows !! i = Some (u, segs) →
  ∃ pre, rg_segment D g u = Ok (u :: pre ++ concat segs) ∧ length pre = D + 1.
Proof.
  intros HD Hi. destruct (rr_rows _ _ _ _ _ _ H _ _ _ Hi) as [Hlen Hr].
  pose proof (pk_row _ _ _ (rr_packed _ _ _ _ _ _ H) _ _ _ Hr) as (H1 & H2 & H3).
  pose proof (pk_row_le _ _ _ _ _ _ (rr_packed _ _ _ _ _ _ H) Hr) as Hle.
  assert (length (rwords D (off rows i) segs) = D) as HwD by (unfold rwords; by rewrite fmap_length, seq_length).
  unfold rbody in Hle. rewrite app_length, HwD in Hle.
  unfold rg_segment. rewrite (rr_index i u) by (by eapply rr_fst). cbn [mbind res_bind]. rewrite H1. cbn [unwrap mbind res_bind].
  rewrite bool_decide_eq_true_2 by done. cbn [assert_res mbind res_bind].
  rewrite (rr_last_word i u segs HD Hi). cbn [unwrap mbind res_bind]. rewrite Nat2N.id.
  eexists (_ :: rwords D (off rows i) segs). split; [|cbn; lia].
  apply slice_ok.
  - cbn [length]. rewrite app_length. cbn [length]. lia.
  - intros [|[|j]] x Hj; cbn in Hj.
    + rewrite Nat.add_0_r. congruence.
    + injection Hj as <-. exact H2.
    + replace (off rows i + S (S j)) with (off rows i + 2 + j) by lia. by apply H3.
  - lia.
Qed.

Lemma rr_order : NoDup arows.*1 → drains (ro_next g) (ro_new g) arows.*1 ∧ size (rg_indices g) = length arows.
Proof.
  intros Hnd.
  assert (size (rg_indices g) = length arows) as Hsz.
  { rewrite <- size_dom. rewrite <- (fmap_length fst arows), <- (size_list_to_set (C:=gset N) arows.*1) by done.
    f_equal. apply set_eq. intros u. rewrite elem_of_dom, elem_of_list_to_set. split.
    - intros [i (k & Hk & _)%(rr_ind _ _ _ _ _ _ H)]. by eapply elem_of_list_lookup_2.
    - intros [k Hk]%elem_of_list_lookup. exists (off rows k). apply (rr_ind _ _ _ _ _ _ H). eauto. }
  split; [|done]. unfold ro_new. rewrite Hsz, <- (rg_rep_fst _ _ _ _ _ _ H), <- (rr_len _ _ _ _ _ _ H).
  eapply order_drains. apply H.
Qed.

Lemma rr_verts : NoDup arows.*1 → rg_order g = Ok arows.*1.
Proof.
  intros Hnd. destruct (rr_order Hnd) as [Hd Hsz]. unfold rg_order. rewrite Hsz.
  eapply drains_collect_it; [done|]. rewrite fmap_length. lia.
Qed.

Lemma rr_iter : ∃ s0 items, ri_new D g = Ok s0 ∧ drains (ri_next D g) s0 items ∧ items.*1 = arows.*1 ∧
  ∀ u x, (u, x) ∈ items → rg_reachables D g u = Ok x.
Proof.
  assert (∀ n i u segs x, n = length arows - i → arows !! i = Some (u, segs) → rg_reachables_at D g (off rows i) = Ok x →
    ∃ items, drains (ri_next D g) (Some x) items ∧ items.*1 = (drop i arows).*1 ∧
      ∀ u x, (u, x) ∈ items → rg_reachables D g u = Ok x) as Hd.
  { induction n as [|n IH]; intros i u segs x Hn Hi Hx.
    - apply lookup_lt_Some in Hi. lia.
    - destruct (rr_reachables_at i u segs Hi) as (bs & Hx' & _). rewrite Hx' in Hx. injection Hx as <-.
      assert (rg_reachables D g u = Ok (Reachables u segs bs)) as Hru.
      { unfold rg_reachables. rewrite (rr_index i u) by (by eapply rr_fst). done. }
      pose proof (rr_next i u segs Hi) as Hnx. destruct (Nat.eqb_spec (S i) (length arows)) as [Hl|Hl].
      + exists [(u, Reachables u segs bs)]. split_and!.
        * eapply drains_cons; [cbn; rewrite Hnx; done|]. by eapply drains_nil.
        * rewrite (drop_S _ _ _ Hi), drop_ge by lia. done.
        * intros u' x' Hin. apply elem_of_list_singleton in Hin. by injection Hin as -> ->.
      + apply lookup_lt_Some in Hi as Hlt. destruct (lookup_lt_is_Some_2 arows (S i)) as [[v segs'] Hi']; [lia|].
        destruct (rr_reachables_at (S i) v segs' Hi') as (bs' & Hx2 & _).
        destruct (IH (S i) v segs' _ ltac:(lia) Hi' Hx2) as (items & Hdr & Hfst & Hall).
        exists ((u, Reachables u segs bs) :: items). split_and!.
        * eapply drains_cons; [|exact Hdr]. cbn. rewrite Hnx, Hx2. done.
        * rewrite (drop_S _ _ _ Hi). cbn. by rewrite Hfst.
        * intros u' x' [Heq|Hin]%elem_of_cons; [by injection Heq as -> ->|by apply Hall]. }
  destruct (arows !! 0) as [[u segs]|] eqn:H0.
  2:{ apply lookup_ge_None in H0. exists None, []. split_and!; [|by eapply drains_nil| |by intros ? ? ?%elem_of_nil].
    - unfold ri_new, rg_first. pose proof (pk_length _ _ _ (rr_packed _ _ _ _ _ _ H)) as Hl.
      rewrite (rr_len _ _ _ _ _ _ H) in Hl. replace (length arows) with 0 in Hl by lia. by destruct (rg_contents g).
    - symmetry. apply nil_length_inv. rewrite fmap_length. lia. }
  destruct (rr_reachables_at 0 u segs H0) as (bs & Hx & _).
  destruct (Hd _ 0 u segs _ eq_refl H0 Hx) as (items & Hdr & Hfst & Hall).
  exists (Some (Reachables u segs bs)), items. split_and!; [|done|by rewrite drop_0 in Hfst|done].
  assert (rg_contents g !! 0 = Some u) as Hc0.
  { destruct (rr_rows _ _ _ _ _ _ H 0 u segs H0) as [_ Hr]. by destruct (pk_row _ _ _ (rr_packed _ _ _ _ _ _ H) _ _ _ Hr) as (H1 & _). }
  unfold ri_new, rg_first. replace (head (rg_contents g)) with (rg_contents g !! 0) by (by destruct (rg_contents g)). rewrite Hc0.
  unfold rg_reachables. rewrite (rr_index 0 u) by (by eapply rr_fst). cbn [mbind res_bind]. by rewrite Hx.
Qed.
End read.

(** ** Appending *)
Definition key_lt (order : gmap N nat) (x y : N) : Prop :=
  ∃ ox oy, order !! x = Some ox ∧ order !! y = Some oy ∧ (ox < oy ∨ ox = oy ∧ (x < y)%N).
Record segs_ok (D : nat) (order : gmap N nat) (m : gmap N nat) (segs : list (list N)) : Prop := {
  so_len : length segs = D;
  so_elem : ∀ d l, 1 ≤ d → segs !! (d - 1) = Some l → ∀ v, v ∈ l ↔ m !! v = Some d;
  so_sorted : ∀ d l, segs !! d = Some l → ∀ i j x y, l !! i = Some x → l !! j = Some y → i < j → key_lt order x y;
  so_size : length (concat segs) = size m;
}.

Section with_iter.
Context `{HI : HashIter}.

Lemma map_iter_length t {A} (m : gmap N A) : length (map_iter t m) = size m.
Proof. rewrite <- (fmap_length fst), map_iter_fst, hash_iter_length, <- size_dom. done. Qed.

Lemma keys_fold (order : gmap N nat) (l : list (N * nat)) : (∀ p, p ∈ l → is_Some (order !! p.1)) → ∀ acc : list (nat * nat * N),
  fold_res (λ l p, o ← unwrap (order !! p.1); Ok (l ++ [(p.2, o, p.1)])) l acc =
  Ok (acc ++ ((λ p : N * nat, (p.2, default 0 (order !! p.1), p.1)) <$> l)).
Proof.
  induction l as [|p l IH]; intros Hl acc; cbn [fold_res]; [by rewrite app_nil_r|].
  destruct (Hl p) as [o Ho]; [by left|]. rewrite Ho. cbn [unwrap mbind res_bind].
  rewrite IH by (intros q Hq; apply Hl; by right). rewrite <- app_assoc. cbn. by rewrite Ho.
Qed.

Lemma re_fold u (l : list (N * nat)) : NoDup l.*1 → ∀ re : gmap N nat * gset (N * N),
  let re' := foldl (λ (re : gmap N nat * gset (N * N)) p,
      if (p.2 =? 1)%nat then
        (map_upd 0 S p.1 re.1, {[ if (u <? p.1)%N then (u, p.1) else (p.1, u) ]} ∪ re.2)
      else re) re l in
  (∀ v, default 0 (re'.1 !! v) = default 0 (re.1 !! v) + if decide ((v, 1) ∈ l) then 1 else 0) ∧
  (∀ e, e ∈ re'.2 ↔ e ∈ re.2 ∨ ∃ v, (v, 1) ∈ l ∧ e = upair u v).
Proof.
  induction l as [|[x d] l IH]; intros Hnd re; cbn [foldl].
  - split.
    + intros v. rewrite decide_False by (by intros ?%elem_of_nil). lia.
    + intros e. split; [by left|]. intros [?|(v & Hv & _)]; [done|]. by apply elem_of_nil in Hv.
  - cbn in Hnd. apply NoDup_cons in Hnd as [Hx Hnd].
    assert (∀ k, (x, k) ∉ l) as Hx'.
    { intros k Hk. apply Hx. apply elem_of_list_fmap. by exists (x, k). }
    specialize (IH Hnd (if (d =? 1)%nat then
        (map_upd 0 S x re.1, {[ if (u <? x)%N then (u, x) else (x, u) ]} ∪ re.2) else re)).
    cbn [fst snd] in *. destruct IH as [IH1 IH2]. split.
    + intros v. rewrite IH1. destruct (Nat.eqb_spec d 1) as [->|Hd]; cbn [fst].
      * unfold map_upd. destruct (decide (v = x)) as [->|Hne].
        -- rewrite lookup_insert, (decide_True (P:=(x, 1) ∈ (x, 1) :: l)) by (by left). rewrite decide_False by done. cbn. lia.
        -- rewrite lookup_insert_ne by done. f_equal.
           destruct (decide ((v, 1) ∈ l)) as [Hin|Hin]; [rewrite decide_True by (by right); done|].
           rewrite decide_False; [done|]. intros [Heq|?]%elem_of_cons; [congruence|done].
      * f_equal. destruct (decide ((v, 1) ∈ l)) as [Hin|Hin]; [rewrite decide_True by (by right); done|].
        rewrite decide_False; [done|]. intros [Heq|?]%elem_of_cons; [congruence|done].
    + intros e. rewrite IH2. destruct (Nat.eqb_spec d 1) as [->|Hd]; cbn [snd].
      * assert ((if (u <? x)%N then (u, x) else (x, u)) = upair u x) as ->.
        { unfold upair. destruct (N.ltb_spec u x), (N.leb_spec u x); try lia; try done. by replace x with u by lia. }
        rewrite elem_of_union, elem_of_singleton. split.
        -- intros [[->|?]|(v & Hv & ->)]; [right; exists x; split; [by left|done]|by left|right; exists v; split; [by right|done]].
        -- intros [?|(v & [Heq|Hv]%elem_of_cons & ->)]; [by left; right| |right; eauto]. injection Heq as ->. by left; left.
      * split.
        -- intros [?|(v & Hv & ->)]; [by left|right; exists v; split; [by right|done]].
        -- intros [?|(v & [Heq|Hv]%elem_of_cons & ->)]; [by left| |right; eauto]. congruence.
Qed.

Lemma rb_append_spec D arows rows b u m order :
  rg_rep D arows rows (rb_last b) (rg_indices (rb_graph b)) (rg_contents (rb_graph b)) →
  u ∉ arows.*1 → (∀ v d, m !! v = Some d → 1 ≤ d ≤ D ∧ is_Some (order !! v)) →
  (N.of_nat (length (rg_contents (rb_graph b)) + 2 + D + size m) < u32_mod)%N →
  ∃ b' rows' segs, rb_append D b u m order = Ok b' ∧
    rg_rep D (arows ++ [(u, segs)]) rows' (rb_last b') (rg_indices (rb_graph b')) (rg_contents (rb_graph b')) ∧
    segs_ok D order m segs ∧
    length (rg_contents (rb_graph b')) = length (rg_contents (rb_graph b)) + 2 + D + size m ∧
    (∀ v, rg_right_degree (rb_graph b') v = rg_right_degree (rb_graph b) v + if decide (m !! v = Some 1) then 1 else 0) ∧
    (∀ e, e ∈ rg_edges (rb_graph b') ↔ e ∈ rg_edges (rb_graph b) ∨ ∃ v, m !! v = Some 1 ∧ e = upair u v).
Proof.
  intros Hrep Hu Hm Hb. set (g := rb_graph b) in *. set (c := rg_contents g) in *.
  destruct (packed_push_spec rows (rg_indices g) c (rb_last b) u (rr_packed _ _ _ _ _ _ Hrep) ltac:(lia)) as (c' & Hpush & Hc' & Hpk).
  unfold rb_append. fold g. fold c. rewrite Hpush. cbn [mbind res_bind].
  rewrite keys_fold.
  2:{ intros [v d] Hp%elem_of_map_iter. by eapply Hm. }
  cbn [mbind res_bind app].
  set (ks0 := (λ p : N * nat, (p.2, default 0 (order !! p.1), p.1)) <$> map_iter 4 m).
  set (keys := merge_sort triple_le ks0).
  assert (keys ≡ₚ ks0) as Hperm by apply merge_sort_Permutation.
  assert (StronglySorted triple_le keys) as Hsort by apply (StronglySorted_merge_sort _).
  assert (∀ d o v, (d, o, v) ∈ keys ↔ m !! v = Some d ∧ o = default 0 (order !! v)) as Hkeys.
  { intros d o v. rewrite Hperm. unfold ks0. rewrite elem_of_list_fmap. split.
    - intros ([v' d'] & [= -> -> ->] & Hp%elem_of_map_iter). done.
    - intros [Hv ->]. exists (v, d). split; [done|]. by apply elem_of_map_iter. }
  assert (length keys = size m) as Hklen by (rewrite Hperm; unfold ks0; by rewrite fmap_length, map_iter_length).
  assert (NoDup (kverts keys)) as Hknd.
  { unfold kverts. rewrite Hperm. unfold ks0. rewrite <- list_fmap_compose. apply (NoDup_map_iter_fst 4 m). }
  assert (∀ t, t ∈ keys → 1 ≤ t.1.1 ≤ D) as Hkd.
  { intros [[d o] v] [Hv _]%Hkeys. cbn. by eapply Hm. }
  clearbody keys. clear ks0 Hperm.
  set (re := foldl _ _ _). destruct (re_fold u (map_iter 5 m) (NoDup_map_iter_fst 5 m) (rg_right g, rg_edges g)) as [Hr1 Hr2].
  fold re in Hr1, Hr2. clearbody re. cbn [fst snd] in Hr1, Hr2.
  repeat (rewrite add_u32_ok by lia; cbn [mbind res_bind]).
  replace (N.of_nat (length c) + N.of_nat D + 2)%N with (N.of_nat (length c + D + 2)) by lia.
  replace (N.to_nat (N.of_nat D + 1)) with (S D) by lia.
  change ((λ t : nat * nat * N, t.1.1) <$> keys) with (kdists keys).
  change ((λ t : nat * nat * N, t.2) <$> keys) with (kverts keys).
  rewrite rb_words_fold.
  2:{ by apply kdists_sorted. }
  2:{ intros d (t & -> & Ht)%elem_of_list_fmap. by apply Hkd. }
  2:{ done. }
  2:{ unfold kdists. rewrite fmap_length. lia. }
  cbn [mbind res_bind fst snd].
  rewrite app_length, fmap_length, seq_length, Hc'.
  rewrite u32_small by (change 4294967296%N with u32_mod; lia).
  rewrite (proj2 (N.eqb_eq _ _)) by lia. cbn [assert_res mbind res_bind].
  assert ((λ d, N.of_nat (length c + D + 2 + cnt (kdists keys) d)) <$> seq 1 D = rwords D (length c) (ksegs D keys)) as ->.
  { unfold rwords. apply list_fmap_ext. intros i d [-> Hd]%lookup_seq. rewrite kcnt, ksegs_concat; [|done| |lia].
    - unfold kverts. by rewrite fmap_length.
    - intros t Ht%Hkd. lia. }
  assert (kverts keys = concat (ksegs D keys)) as Hkc.
  { rewrite <- (take_ge (ksegs D keys) D) by (by rewrite ksegs_length). rewrite ksegs_concat; [|done| |done].
    - rewrite filter_all; [done|]. intros t Ht%Hkd. lia.
    - intros t Ht%Hkd. lia. }
  rewrite <- app_assoc, Hkc. fold (rbody D (length c) (ksegs D keys)).
  assert (off rows (length rows) = length c) as Hoff by (symmetry; apply (pk_length _ _ _ (rr_packed _ _ _ _ _ _ Hrep))).
  eexists _, (rows ++ [(u, rbody D (length c) (ksegs D keys))]), (ksegs D keys). split; [done|]. cbn [rb_graph rb_last rg_contents rg_indices rg_edges].
  split_and!.
  - split.
    + apply Hpk.
    + rewrite !app_length. cbn. by rewrite (rr_len _ _ _ _ _ _ Hrep).
    + intros i v segs Hi. apply lookup_app_Some in Hi as [Hi|[Hge Hi]].
      * destruct (rr_rows _ _ _ _ _ _ Hrep _ _ _ Hi) as [H1 H2]. split; [done|].
        apply lookup_lt_Some in H2 as Hlt. rewrite lookup_app_l by done. rewrite off_app by lia. done.
      * apply list_lookup_singleton_Some in Hi as [Hi [= <- <-]]. rewrite ksegs_length. split; [done|].
        assert (i = length rows) as -> by (rewrite (rr_len _ _ _ _ _ _ Hrep); lia).
        rewrite list_lookup_middle by done. rewrite off_app, Hoff by done. done.
    + intros v i. rewrite fmap_app. cbn [fmap list_fmap fst].
      destruct (decide (v = u)) as [->|Hne].
      * rewrite lookup_insert. split.
        -- intros [= <-]. exists (length rows). rewrite off_app, Hoff by done. split; [|done].
           apply list_lookup_middle. rewrite fmap_length. by apply Hrep.
        -- intros (k & Hk & ->). apply lookup_app_Some in Hk as [Hk|[Hge Hk]].
           ++ destruct Hu. by eapply elem_of_list_lookup_2.
           ++ apply list_lookup_singleton_Some in Hk as [Hk _]. rewrite fmap_length in *.
              assert (k = length rows) as -> by (rewrite (rr_len _ _ _ _ _ _ Hrep); lia). by rewrite off_app, Hoff.
      * rewrite lookup_insert_ne by done. rewrite (rr_ind _ _ _ _ _ _ Hrep). split.
        -- intros (k & Hk & ->). exists k. split; [by apply lookup_app_l_Some|].
           rewrite off_app; [done|]. rewrite (rr_len _ _ _ _ _ _ Hrep). apply lookup_lt_Some in Hk. rewrite fmap_length in Hk. lia.
        -- intros (k & Hk & ->). apply lookup_app_Some in Hk as [Hk|[Hge Hk]].
           ++ exists k. split; [done|]. rewrite off_app; [done|]. rewrite (rr_len _ _ _ _ _ _ Hrep).
              apply lookup_lt_Some in Hk. rewrite fmap_length in Hk. lia.
           ++ by apply list_lookup_singleton_Some in Hk as [_ ->].
  - split.
    + apply ksegs_length.
    + intros d l Hd Hl v. assert (d ≤ D) as HdD.
      { apply lookup_lt_Some in Hl. rewrite ksegs_length in Hl. lia. }
      rewrite ksegs_lookup in Hl by lia. injection Hl as <-. unfold kverts. rewrite elem_of_list_fmap. split.
      * intros ([[d' o] v'] & -> & Ht). apply elem_of_list_filter in Ht as [Hd' [Hv _]%Hkeys]. cbn in *. by subst.
      * intros Hv. eexists (d, _, v). split; [done|]. apply elem_of_list_filter. split; [done|]. by apply Hkeys.
    + intros d l Hl i j x y Hx Hy Hij. assert (d < D) as HdD.
      { apply lookup_lt_Some in Hl. rewrite ksegs_length in Hl. lia. }
      replace d with (S d - 1) in Hl by lia. rewrite ksegs_lookup in Hl by lia. injection Hl as <-.
      set (fk := filter (λ t : nat * nat * N, t.1.1 = S d) keys) in *.
      assert (StronglySorted triple_le fk) as Hfs.
      { unfold fk. clear -Hsort. induction Hsort as [|t l Hl IH Ht]; [constructor|]. rewrite filter_cons.
        destruct (decide (t.1.1 = S d)); [|done]. constructor; [done|]. rewrite Forall_forall in *. intros y Hy.
        apply elem_of_list_filter in Hy as [_ Hy]. by apply Ht. }
      assert (NoDup (kverts fk)) as Hfnd.
      { unfold fk. clear -Hknd. induction keys as [|t l IH]; [done|]. cbn in Hknd. apply NoDup_cons in Hknd as [Ht Hnd].
        rewrite filter_cons. destruct (decide (t.1.1 = S d)); [|by apply IH]. cbn. apply NoDup_cons. split; [|by apply IH].
        intros (t' & Heq & Ht')%elem_of_list_fmap. apply Ht. rewrite Heq. apply elem_of_list_filter in Ht' as [_ Ht'].
        apply elem_of_list_fmap. by exists t'. }
      assert (x ≠ y) as Hxy.
      { intros ->. pose proof (NoDup_lookup _ _ _ _ Hfnd Hx Hy). lia. }
      unfold kverts in Hx, Hy. rewrite list_lookup_fmap in Hx, Hy.
      destruct (fk !! i) as [[[d1 o1] x']|] eqn:Hi; [|done]. destruct (fk !! j) as [[[d2 o2] y']|] eqn:Hj; [|done].
      cbn in Hx, Hy. injection Hx as ->. injection Hy as ->.
      assert (triple_le (d1, o1, x) (d2, o2, y)) as Hle.
      { clear -Hfs Hi Hj Hij. revert i j Hi Hj Hij. induction Hfs as [|t l Hl IH Ht]; intros i j Hi Hj Hij; [done|].
        destruct j as [|j]; [lia|]. destruct i as [|i].
        - cbn in Hi, Hj. injection Hi as ->. rewrite Forall_forall in Ht. apply Ht. by eapply elem_of_list_lookup_2.
        - eapply (IH i j); [done|done|lia]. }
      apply elem_of_list_lookup_2, elem_of_list_filter in Hi as [Hd1 [Hmx ->]%Hkeys].
      apply elem_of_list_lookup_2, elem_of_list_filter in Hj as [Hd2 [Hmy ->]%Hkeys]. cbn in Hd1, Hd2. subst d1 d2.
      destruct (Hm _ _ Hmx) as [_ [ox Hox]], (Hm _ _ Hmy) as [_ [oy Hoy]]. rewrite Hox, Hoy in Hle. cbn in Hle.
      exists ox, oy. split_and!; [done|done|]. unfold triple_le in Hle. cbn in Hle. lia.
    + rewrite <- Hkc. unfold kverts. by rewrite fmap_length.
  - rewrite app_length, Hc'. unfold rbody. rewrite app_length, <- Hkc. unfold rwords, kverts.
    rewrite !fmap_length, seq_length. lia.
  - intros v. unfold rg_right_degree. cbn [rg_right].
    specialize (Hr1 v). unfold default in Hr1. unfold id in Hr1.
    etrans; [|etrans; [exact Hr1|]]; [done|]. f_equal.
    destruct (decide ((v, 1) ∈ map_iter 5 m)) as [Hin|Hin]; rewrite elem_of_map_iter in Hin;
      destruct (decide (m !! v = Some 1)); done.
  - intros e. rewrite Hr2. split; (intros [?|(v & Hv & ->)]; [by left|right; exists v]); (split; [|done]);
      by apply (elem_of_map_iter 5 m v 1).
Qed.

Definition app_cost (D : nat) (p : N * gmap N nat) : nat := 2 + D + size p.2.

Record built (D : nat) (order : gmap N nat) (apps : list (N * gmap N nat)) (b : rg_builder)
    (arows : list (N * list (list N))) (rows : list (N * list N)) : Prop := {
  bu_rep : rg_rep D arows rows (rb_last b) (rg_indices (rb_graph b)) (rg_contents (rb_graph b));
  bu_segs : Forall2 (λ p r, p.1 = r.1 ∧ segs_ok D order p.2 r.2) apps arows;
  bu_len : length (rg_contents (rb_graph b)) = sum_list_with (app_cost D) apps;
  bu_right : ∀ v, rg_right_degree (rb_graph b) v = length (filter (λ p : N * gmap N nat, p.2 !! v = Some 1) apps);
  bu_edges : ∀ e, e ∈ rg_edges (rb_graph b) ↔ ∃ u m v, (u, m) ∈ apps ∧ m !! v = Some 1 ∧ e = upair u v;
}.

Lemma built_nil D order : built D order [] rb_new [] [].
Proof.
  split; [apply rg_rep_nil|constructor|done|done|]. intros e. cbn. split; [set_solver|].
  intros (u & m & v & H & _). by apply elem_of_nil in H.
Qed.

Lemma forall2_fst D order apps (arows : list (N * list (list N))) :
  Forall2 (λ p r, p.1 = r.1 ∧ segs_ok D order p.2 r.2) apps arows → arows.*1 = apps.*1.
Proof. induction 1 as [|p r l l' [H1 _] _ IH]; [done|]. cbn. by rewrite H1, IH. Qed.

Lemma built_step D order apps b arows rows u m : built D order apps b arows rows → u ∉ apps.*1 →
  (∀ v d, m !! v = Some d → 1 ≤ d ≤ D ∧ is_Some (order !! v)) →
  (N.of_nat (sum_list_with (app_cost D) apps + app_cost D (u, m)) < u32_mod)%N →
  ∃ b' arows' rows', rb_append D b u m order = Ok b' ∧ built D order (apps ++ [(u, m)]) b' arows' rows'.
Proof.
  intros Hb Hu Hm Hsz. change (app_cost D (u, m)) with (2 + D + size m) in Hsz.
  destruct (rb_append_spec D arows rows b u m order) as (b' & rows' & segs & Happ & Hrep & Hsegs & Hlen & Hright & Hedges).
  - apply Hb.
  - by rewrite (forall2_fst _ _ _ _ (bu_segs _ _ _ _ _ _ Hb)).
  - done.
  - rewrite (bu_len _ _ _ _ _ _ Hb). lia.
  - exists b', (arows ++ [(u, segs)]), rows'. split; [done|]. split.
    + done.
    + apply Forall2_app; [apply Hb|]. constructor; [done|constructor].
    + rewrite Hlen, (bu_len _ _ _ _ _ _ Hb), sum_list_with_app. cbn [sum_list_with]. change (app_cost D (u, m)) with (2 + D + size m). lia.
    + intros v. rewrite Hright, (bu_right _ _ _ _ _ _ Hb), filter_app, app_length, filter_cons, filter_nil. cbn [snd].
      by destruct (decide (m !! v = Some 1)).
    + intros e. rewrite Hedges, (bu_edges _ _ _ _ _ _ Hb). split.
      * intros [(u' & m' & v & Hin & Hv & ->)|(v & Hv & ->)].
        -- exists u', m', v. split; [apply elem_of_app; by left|done].
        -- exists u, m, v. split; [apply elem_of_app; right; by apply elem_of_list_singleton|done].
      * intros (u' & m' & v & [Hin|Hin%elem_of_list_singleton]%elem_of_app & Hv & ->).
        -- left. by exists u', m', v.
        -- injection Hin as -> ->. right. by exists v.
Qed.

Lemma rb_appends_spec D order apps : NoDup apps.*1 →
  (∀ u m v d, (u, m) ∈ apps → m !! v = Some d → 1 ≤ d ≤ D ∧ is_Some (order !! v)) →
  (N.of_nat (sum_list_with (app_cost D) apps) < u32_mod)%N →
  ∃ b arows rows, fold_res (λ b p, rb_append D b p.1 p.2 order) apps rb_new = Ok b ∧ built D order apps b arows rows.
Proof.
  intros Hnd Hm Hsz.
  destruct (fold_res_inv (λ b p, rb_append D b p.1 p.2 order)
    (λ l1 b, ∃ arows rows, built D order l1 b arows rows) apps rb_new) as (b & Hb & arows & rows & Hbu).
  - exists [], []. apply built_nil.
  - intros l1 [u m] l2 b Hl (arows & rows & Hb). rewrite Hl in Hnd, Hsz. rewrite fmap_app in Hnd. cbn in Hnd.
    apply NoDup_app in Hnd as (_ & Hd & _).
    destruct (built_step D order l1 b arows rows u m Hb) as (b' & arows' & rows' & H1 & H2).
    + intros Hin. apply (Hd u Hin). by left.
    + intros v d Hv. eapply Hm; [|done]. rewrite Hl. apply elem_of_app. right. by left.
    + rewrite sum_list_with_app in Hsz. cbn [sum_list_with] in Hsz. lia.
    + exists b'. split; [done|]. eauto.
  - eauto.
Qed.
End with_iter.
