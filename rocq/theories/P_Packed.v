(** Proofs about the packed array shared by degengraph.rs and reachgraph.rs. *)
From Verif Require Import Base Spec M_Graph M_Iterators M_EditGraph M_OrdGraph M_DegenGraph
  P_Generators P_Iterators.

(** ** Collecting an iterator *)
Lemma collect_it_drains {S A} (next : S → res (option A * S)) fuel : ∀ s l,
  collect_it next fuel s = Ok l → drains next s l.
Proof.
  induction fuel as [|fuel IH]; intros s l; [done|]. cbn [collect_it]. rewrite bind_ok.
  intros ([[x|] s'] & Hn & Hr).
  - apply bind_ok in Hr as (l' & Hl' & [= <-]). eapply drains_cons; [done|]. by apply IH.
  - injection Hr as <-. by eapply drains_nil.
Qed.
Lemma drains_collect_it {S A} (next : S → res (option A * S)) s l :
  drains next s l → ∀ fuel, length l < fuel → collect_it next fuel s = Ok l.
Proof.
  induction 1 as [s s' Hn|s s' x l Hn Hd IH]; intros [|fuel] Hf; cbn in Hf; try lia; cbn [collect_it]; rewrite Hn; cbn [mbind res_bind].
  - done.
  - rewrite IH by lia. done.
Qed.

(** ** Layout *)
(** A row is a vertex together with the words after its link word. *)
Definition off (rows : list (N * list N)) (i : nat) : nat :=
  sum_list_with (λ r, 2 + length r.2) (take i rows).

Lemma off_0 rows : off rows 0 = 0.
Proof. done. Qed.
Lemma off_S rows i u b : rows !! i = Some (u, b) → off rows (S i) = off rows i + (2 + length b).
Proof.
  intros Hi. unfold off. rewrite (take_S_r _ _ _ Hi), sum_list_with_app. cbn. lia.
Qed.
Lemma off_app rows rows' i : i ≤ length rows → off (rows ++ rows') i = off rows i.
Proof. intros Hi. unfold off. by rewrite take_app_le. Qed.
Lemma off_lt rows i j : i < j → j ≤ length rows → off rows i + 2 ≤ off rows j.
Proof.
  intros Hij. induction Hij as [|j Hij IH]; intros Hj.
  - destruct (lookup_lt_is_Some_2 rows i) as [[u b] Hi]; [lia|]. rewrite (off_S _ _ _ _ Hi). lia.
  - destruct (lookup_lt_is_Some_2 rows j) as [[u b] Hi]; [lia|]. rewrite (off_S _ _ _ _ Hi). specialize (IH ltac:(lia)). lia.
Qed.
Lemma off_le rows i j : i ≤ j → j ≤ length rows → off rows i ≤ off rows j.
Proof. intros Hij Hj. destruct (decide (i = j)) as [->|]; [done|]. pose proof (off_lt rows i j). lia. Qed.
Lemma off_inj rows i j : i < length rows → j < length rows → off rows i = off rows j → i = j.
Proof.
  intros Hi Hj Ho. destruct (lt_eq_lt_dec i j) as [[H|H]|H]; [|done|].
  - pose proof (off_lt rows i j H). lia.
  - pose proof (off_lt rows j i H). lia.
Qed.

Record packed (rows : list (N * list N)) (c : list N) (last : option N) : Prop := {
  pk_length : length c = off rows (length rows);
  pk_last : last = match rows with [] => None | _ => Some (N.of_nat (off rows (length rows - 1))) end;
  pk_row : ∀ i u b, rows !! i = Some (u, b) →
    c !! off rows i = Some u ∧
    c !! (off rows i + 1) = Some (N.of_nat (if S i =? length rows then off rows i else off rows (S i))) ∧
    ∀ j x, b !! j = Some x → c !! (off rows i + 2 + j) = Some x;
}.

Lemma packed_nil : packed [] [] None.
Proof. split; done. Qed.

Lemma pk_row_le rows c last i u b : packed rows c last → rows !! i = Some (u, b) →
  off rows i + (2 + length b) ≤ length c.
Proof.
  intros H Hi. rewrite (pk_length _ _ _ H), <- (off_S _ _ _ _ Hi).
  apply off_le; [|done]. apply lookup_lt_Some in Hi. lia.
Qed.

Lemma packed_push_spec rows ind c last u : packed rows c last → (N.of_nat (length c + 1) < u32_mod)%N →
  ∃ c', packed_push ind c last u = Ok (<[u := length c]> ind, c', N.of_nat (length c)) ∧
    length c' = length c + 2 ∧
    ∀ b, packed (rows ++ [(u, b)]) (c' ++ b) (Some (N.of_nat (length c))).
Proof.
  intros H Hlt. unfold packed_push.
  assert (length (c ++ [u]) - 1 = length c) as -> by (rewrite app_length; cbn; lia).
  rewrite u32_small by (change 4294967296%N with u32_mod; lia).
  assert (length ((c ++ [u]) ++ [N.of_nat (length c)]) - 1 = length c + 1) as -> by (rewrite !app_length; cbn; lia).
  rewrite u32_small by (change 4294967296%N with u32_mod; lia).
  rewrite (proj2 (N.eqb_eq _ _)) by lia. cbn [assert_res mbind res_bind].
  rewrite Nat2N.id.
  set (c2 := (c ++ [u]) ++ [N.of_nat (length c)]).
  assert (length c2 = length c + 2) as Hc2 by (unfold c2; rewrite !app_length; cbn; lia).
  assert (c2 !! length c = Some u) as Hu2.
  { unfold c2. rewrite <- app_assoc, lookup_app_r by lia. by rewrite Nat.sub_diag. }
  assert (c2 !! (length c + 1) = Some (N.of_nat (length c))) as Hl2.
  { unfold c2. rewrite <- app_assoc, lookup_app_r by lia. by replace (length c + 1 - length c) with 1 by lia. }
  assert (∀ i x, c !! i = Some x → c2 !! i = Some x) as Hold.
  { intros i x Hi. unfold c2. rewrite <- app_assoc. rewrite lookup_app_l; [done|]. by apply lookup_lt_Some in Hi. }
  clearbody c2.
  assert (∀ b, off (rows ++ [(u, b)]) (length rows) = length c) as Ho1.
  { intros b. rewrite off_app by done. by rewrite (pk_length _ _ _ H). }
  assert (∃ c', (match last with
      | Some l => _ ← assert_res (N.to_nat (l + 1) <? length c2); Ok (<[N.to_nat (l + 1) := N.of_nat (length c)]> c2)
      | None => Ok c2 end) = Ok c' ∧ length c' = length c + 2 ∧
      (∀ i x, c2 !! i = Some x → (∀ l, last = Some l → i ≠ N.to_nat l + 1) → c' !! i = Some x) ∧
      (∀ l, last = Some l → c' !! (N.to_nat l + 1) = Some (N.of_nat (length c)))) as (c' & -> & Hlen & Hc' & Hlk).
  { destruct last as [l|].
    - pose proof (pk_last _ _ _ H) as Hl. destruct rows as [|r rows']; [done|]. injection Hl as Hl.
      assert (N.to_nat l + 2 ≤ length c) as Hle.
      { rewrite Hl, Nat2N.id, (pk_length _ _ _ H). apply off_lt; cbn; lia. }
      replace (N.to_nat (l + 1)) with (N.to_nat l + 1) by lia.
      rewrite (proj2 (Nat.ltb_lt _ _)) by lia. cbn [assert_res mbind res_bind]. eexists; split; [done|].
      rewrite insert_length. split_and!; [done| |].
      + intros i x Hi Hne. rewrite list_lookup_insert_ne; [done|]. specialize (Hne l eq_refl). lia.
      + intros l' [= <-]. rewrite list_lookup_insert; [done|lia].
    - exists c2. split_and!; done. }
  exists c'. split_and!; [done|done|]. intros b.
  assert (∀ i x, c' !! i = Some x → (c' ++ b) !! i = Some x) as Happ.
  { intros i x Hi. rewrite lookup_app_l; [done|]. by apply lookup_lt_Some in Hi. }
  assert (∀ l, last = Some l → rows ≠ [] ∧ N.to_nat l = off rows (length rows - 1)) as Hlast.
  { intros l ->. pose proof (pk_last _ _ _ H) as Hl. destruct rows; [done|]. split; [done|]. injection Hl as ->. by rewrite Nat2N.id. }
  assert (rows ≠ [] → last = Some (N.of_nat (off rows (length rows - 1)))) as Hlast2.
  { intros Hne. rewrite (pk_last _ _ _ H). by destruct rows. }
  split.
  - rewrite !app_length, Hlen. cbn [length]. rewrite Nat.add_1_r.
    rewrite (off_S _ _ u b); [rewrite Ho1; lia|]. by rewrite list_lookup_middle.
  - rewrite app_length. cbn [length]. rewrite Nat.add_sub, Ho1. by destruct rows.
  - intros i v b' Hi. rewrite app_length. cbn [length]. destruct (decide (i = length rows)) as [->|Hne].
    + rewrite list_lookup_middle in Hi by done. injection Hi as <- <-. rewrite Ho1.
      rewrite (proj2 (Nat.eqb_eq _ _)) by lia.
      assert (∀ l, last = Some l → N.to_nat l + 2 ≤ length c) as Hll.
      { intros l [Hr ->]%Hlast. rewrite (pk_length _ _ _ H). apply off_lt; destruct rows; cbn in *; try done; lia. }
      split_and!.
      * apply Happ, Hc'; [done|]. intros l Hl%Hll. lia.
      * apply Happ, Hc'; [done|]. intros l Hl%Hll. lia.
      * intros j x Hj. rewrite lookup_app_r by lia. rewrite Hlen. rewrite <- Hj. f_equal. lia.
    + assert (i < length rows) as Hir.
      { apply lookup_lt_Some in Hi. rewrite app_length in Hi. cbn in Hi. lia. }
      rewrite lookup_app_l in Hi by done. rewrite !off_app by lia.
      rewrite (proj2 (Nat.eqb_neq _ _)) by lia.
      destruct (pk_row _ _ _ H i v b' Hi) as (H1 & H2 & H3).
      assert (∀ k, k < 2 + length b' → k ≠ 1 → ∀ l, last = Some l → off rows i + k ≠ N.to_nat l + 1) as Hdis.
      { intros k Hk Hk1 l [Hr ->]%Hlast. destruct (decide (i = length rows - 1)) as [->|Hi']; [lia|].
        pose proof (off_le rows (S i) (length rows - 1)) as Hle. rewrite (off_S _ _ _ _ Hi) in Hle. lia. }
      split_and!.
      * apply Happ, Hc'; [by apply Hold|]. intros l Hl. rewrite <- (Nat.add_0_r (off rows i)). by apply Hdis; [lia|lia|].
      * apply Happ. destruct (decide (S i = length rows)) as [Hil|Hil].
        -- rewrite (Hlast2 ltac:(intros ->; cbn in *; lia)) in Hlk. specialize (Hlk _ eq_refl).
           rewrite Nat2N.id in Hlk. replace (length rows - 1) with i in Hlk by lia. rewrite Hlk.
           do 2 f_equal. rewrite Hil. apply (pk_length _ _ _ H).
        -- apply Hc'; [apply Hold; rewrite H2; by rewrite (proj2 (Nat.eqb_neq _ _)) by done|].
           intros l [Hr ->]%Hlast. pose proof (off_lt rows i (length rows - 1)). lia.
      * intros j x Hj. apply Happ, Hc'; [by apply Hold, H3|]. intros l Hl. rewrite <- Nat.add_assoc.
        apply Hdis; [|lia|done]. apply lookup_lt_Some in Hj. lia.
Qed.

Lemma slice_ok c lo hi l : lo + length l = hi → (∀ j x, l !! j = Some x → c !! (lo + j) = Some x) →
  hi ≤ length c → slice c lo hi = Ok l.
Proof.
  intros Hl Hlk Hle. unfold slice. rewrite !(proj2 (Nat.leb_le _ _)) by lia. cbn [andb assert_res mbind res_bind].
  f_equal. apply list_eq. intros j. destruct (decide (j < length l)) as [Hj|Hj].
  - rewrite lookup_take by lia. rewrite lookup_drop. destruct (lookup_lt_is_Some_2 l j Hj) as [x Hx]. rewrite Hx. by apply Hlk.
  - rewrite lookup_take_ge by lia. symmetry. apply lookup_ge_None. lia.
Qed.

Lemma packed_slice rows c last i u b lo hi : packed rows c last → rows !! i = Some (u, b) →
  lo ≤ hi → hi ≤ length b →
  slice c (off rows i + 2 + lo) (off rows i + 2 + hi) = Ok (take (hi - lo) (drop lo b)).
Proof.
  intros H Hi Hlo Hhi. apply slice_ok.
  - rewrite take_length, drop_length. lia.
  - intros j x Hj. destruct (decide (j < hi - lo)) as [Hlt|Hge]; [|by rewrite lookup_take_ge in Hj by lia].
    rewrite lookup_take in Hj by done. rewrite lookup_drop in Hj. rewrite <- Nat.add_assoc. by apply (pk_row _ _ _ H i u b Hi).
  - pose proof (pk_row_le _ _ _ _ _ _ H Hi). lia.
Qed.

Lemma order_next_step rows c last i u b : packed rows c last → rows !! i = Some (u, b) →
  order_next c (Some (off rows i)) = Ok (Some u, if S i =? length rows then None else Some (off rows (S i))).
Proof.
  intros H Hi. destruct (pk_row _ _ _ H i u b Hi) as (H1 & H2 & _). cbn [order_next]. rewrite H1. cbn [unwrap mbind res_bind].
  rewrite H2. cbn [unwrap mbind res_bind]. rewrite Nat2N.id. destruct (Nat.eqb_spec (S i) (length rows)) as [Hl|Hl].
  - by rewrite Nat.eqb_refl.
  - rewrite (proj2 (Nat.eqb_neq _ _)); [done|]. rewrite (off_S _ _ _ _ Hi). lia.
Qed.

Lemma order_drains rows c last : packed rows c last →
  drains (order_next c) (if length rows =? 0 then None else Some 0) rows.*1.
Proof.
  intros H. destruct (Nat.eqb_spec (length rows) 0) as [Hl|Hl].
  { destruct rows; [|done]. by eapply drains_nil. }
  change 0 with (off rows 0). change rows.*1 with (drop 0 rows).*1.
  assert (∀ n i, n = length rows - i → i < length rows → drains (order_next c) (Some (off rows i)) (drop i rows).*1) as Hd.
  { induction n as [|n IH]; intros i Hn Hi; [lia|]. destruct (lookup_lt_is_Some_2 rows i Hi) as [[u b] Hr].
    rewrite (drop_S _ _ _ Hr). cbn [fmap list_fmap fst]. eapply drains_cons; [by eapply order_next_step|].
    destruct (Nat.eqb_spec (S i) (length rows)) as [Hl'|Hl'].
    - rewrite drop_ge by lia. by eapply drains_nil.
    - apply IH; lia. }
  apply (Hd (length rows)); lia.
Qed.
