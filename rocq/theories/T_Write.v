(** Property theorem C89: what a written file holds when the device may refuse bytes (io.rs:16-31, 65-108). *)
From Verif Require Import Base M_Graph M_Iterators M_EditGraph M_IO M_File M_Write S_IO S_File P_IO P_File P_Write T_IO T_File Examples.

(** ** The texts *)
Lemma foldl_concat {A} (f : A → list N) l : ∀ t0, foldl (λ t x, t ++ f x) t0 l = t0 ++ concat (f <$> l).
Proof. induction l as [|x l IH]; intros t0; cbn; [by rewrite app_nil_r|]. by rewrite IH, <- app_assoc. Qed.

(** The pieces written are the texts of C60 and C61. *)
Theorem C89_texts `{HashIter} : (∀ l, concat (vec_pieces l) = vec_write l) ∧ (∀ s, concat (vset_pieces s) = vset_write s) ∧
  (∀ G t, graph_write G = Ok t → ∃ ps, graph_pieces G = Ok ps ∧ concat ps = t).
Proof.
  split_and!.
  - intros l. unfold vec_pieces, vec_write. by rewrite (foldl_concat (λ u, fmt_u32 u ++ [10%N])).
  - intros s. unfold vset_pieces, vec_pieces, vset_write. by rewrite (foldl_concat (λ u, fmt_u32 u ++ [10%N])).
  - intros G t. unfold graph_write, graph_pieces. destruct (edges G) as [es| |]; [|done|done]. cbn [mbind res_bind]. intros [= <-].
    eexists. split; [done|]. by rewrite (foldl_concat (λ e : N * N, fmt_u32 e.1 ++ [32%N] ++ fmt_u32 e.2 ++ [10%N])).
Qed.

(** ** C89: text files. Success means that everything is stored; otherwise a prefix is. *)
Theorem C89_text_file (ans : nat → nat → option nat) (cap : nat) (created : bool) (ps : list (list N)) (ok : bool) (data : list N) :
  write_txt_dev ans cap created ps = (ok, data) →
  (ok = true → data = concat ps) ∧ data `prefix_of` concat ps ∧
  (created = true → (∀ n m, ans n m ≠ None) → ok = true).
Proof.
  unfold write_txt_dev. destruct created; [|intros [= <- <-]; split_and!; [done|apply prefix_nil|done]].
  destruct (write_buf _ _ _ cap dev_new ps) as [d ok'] eqn:E. intros [= <- <-].
  assert (∀ w t bs w' rest ok, dv_data w = t → dev_put ans w 0 bs = (w', rest, ok) → ∃ t', bs = t' ++ rest ∧ dv_data w' = t ++ t' ∧ (ok = true → rest = [])) as Hput.
  { intros w t bs w' rest ok <- Ep. destruct (dev_put_spec _ _ _ _ _ _ _ Ep) as (H1 & H2 & _ & _).
    assert (dv_data w `prefix_of` dv_data w') as [t' Ht'].
    { clear -Ep. revert w w' rest ok Ep. generalize 0. induction bs as [|b bs IH]; intros k w w' rest ok; cbn [dev_put]; [by intros [= <- _ _]|].
      destruct k as [|k]; [destruct (ans _ _)|].
      - intros H%IH. etrans; [|exact H]. cbn. by eexists.
      - by intros [= <- _ _].
      - intros H%IH. etrans; [|exact H]. cbn. by eexists. }
    exists t'. split; [|done]. rewrite Ht', <- app_assoc in H1. by apply app_inv_head in H1. }
  pose proof (write_buf_spec (λ d, dev_put ans d 0) (λ d, (d, true)) (λ d, d) cap (λ d t, dv_data d = t) Hput (λ w, dev_put_nil ans w 0) dev_new ps d ok' eq_refl E) as H.
  split_and!.
  - intros ->. destruct H as [(_ & w1 & w2 & <- & [= ->] & ->)|[? _]]; done.
  - destruct H as [(_ & w1 & w2 & <- & [= ->] & ->)|(_ & w1 & t & <- & Hp & [->|(w2 & [=] & _)])]; done.
  - intros _ Hno. change ok' with (d, ok').2. rewrite <- E. apply write_buf_ok; [|done].
    intros w bs. destruct (dev_put ans w 0 bs) as [[w' rest] ok] eqn:Ep. cbn. destruct (dev_put_spec _ _ _ _ _ _ _ Ep) as (_ & _ & _ & H4).
    destruct ok; [done|]. destruct (H4 eq_refl) as (n & m & Hn). by destruct (Hno n m).
Qed.

(** ** C89: gzip files *)
Section gzip.
Context (gz_header : list N) (C : Type) (c_new : C) (c_step : C → list N → C * list N) (c_sync : C → C * list N) (c_end c_crc : C → list N).
Notation write_gz_dev ans := (write_gz_dev ans gz_header C c_new c_step c_sync c_end c_crc).

(** The stream for the blocks [bl] up to the sync flush (if any), and its end. *)
Definition gz_body (bl : list (list N)) (synced : bool) : list N :=
  let '(c, out) := gz_blocks C c_step c_new bl in gz_header ++ out ++ (if synced then (c_sync c).2 else []).
Definition gz_tail (bl : list (list N)) (synced : bool) : list N :=
  let '(c, _) := gz_blocks C c_step c_new bl in let c := if synced then (c_sync c).1 else c in c_end c ++ c_crc c.

(** Whatever happens, the file holds a prefix of the stream of a prefix of the text, unless a part of the
    header was refused, and then the end of the empty stream may follow.  If success is
    reported the stream is that of the whole text and at most its end is cut off; if the device never
    fails it is complete.  Partial: the claim is that success means that the stream is complete. *)
Theorem C89_gzip_partial (ans : nat → nat → option nat) (cap : nat) (ps : list (list N)) (ok : bool) (data : list N) :
  write_gz_dev ans cap true ps = (ok, data) →
  ∃ bl synced, Forall (λ b, b ≠ []) bl ∧ concat bl `prefix_of` concat ps ∧
    (data `prefix_of` gz_body bl synced ++ gz_tail bl synced ∨
     ok = false ∧ bl = [] ∧ ∃ h1 h2 e, gz_header = h1 ++ h2 ∧ h2 ≠ [] ∧ e `prefix_of` c_end c_new ∧ data = h1 ++ e) ∧
    (ok = true → concat bl = concat ps ∧ synced = true ∧ gz_body bl synced `prefix_of` data) ∧
    ((∀ n m, ans n m ≠ None) → ok = true ∧ data = gz_body bl synced ++ gz_tail bl synced).
Proof.
  unfold M_Write.write_gz_dev. destruct (write_buf _ _ _ cap _ ps) as [g ok'] eqn:E. intros [= <- <-].
  set (drop := gz_drop ans C c_end c_crc) in *.
  pose proof (write_buf_spec _ (gz_flush ans C c_sync) drop cap (gz_inv gz_header C c_new c_step)
    (gz_inv_put ans gz_header C c_new c_step) (λ w, eq_refl) _ ps g ok' (gz_inv_new gz_header C c_new c_step) E) as H.
  assert ((∀ n m, ans n m ≠ None) → ok' = true) as Hok.
  { intros Hno. change ok' with (g, ok').2. rewrite <- E. assert (∀ d bs, (dev_put ans d 0 bs).2 = true) as Hd.
    { intros d bs. destruct (dev_put ans d 0 bs) as [[w' rest] ok] eqn:Ep. cbn. destruct (dev_put_spec _ _ _ _ _ _ _ Ep) as (_ & _ & _ & H4).
      destruct ok; [done|]. destruct (H4 eq_refl) as (n & m & Hn). by destruct (Hno n m). }
    assert (∀ g, (gz_write_header ans C g).2 = true) as Hh.
    { intros g1. unfold gz_write_header. specialize (Hd (gz_dev C g1) (gz_hdr C g1)). by destruct (dev_put ans _ _ _) as [[? ?] ?]. }
    assert (∀ g, (gz_dump ans C g).2 = true) as Hdu.
    { intros g1. unfold gz_dump. specialize (Hd (gz_dev C g1) (gz_pend C g1)). by destruct (dev_put ans _ _ _) as [[? ?] ?]. }
    apply write_buf_ok.
    - intros w [|b bs]; [done|]. unfold gz_put. specialize (Hh w). destruct (gz_write_header ans C w) as [w1 ok1]. cbn in Hh. subst ok1.
      specialize (Hdu w1). destruct (gz_dump ans C w1) as [w2 ok2]. cbn in Hdu. subst ok2. by destruct (c_step _ _).
    - intros w. unfold gz_flush. specialize (Hh w). destruct (gz_write_header ans C w) as [w1 ok1]. cbn in Hh. subst ok1.
      destruct (c_sync _) as [c out]. apply Hdu. }
  assert (∀ bl synced g c s, gz_is C g c s → s = gz_body bl synced → c_end c ++ c_crc c = gz_tail bl synced →
    dv_data (gz_dev C g) `prefix_of` dv_data (gz_dev C (drop g)) ∧
    (dv_data (gz_dev C (drop g)) `prefix_of` gz_body bl synced ++ gz_tail bl synced ∨
     gz_hdr C g ≠ [] ∧ ∃ h1 h2 e, s = h1 ++ h2 ∧ h2 ≠ [] ∧ e `prefix_of` c_end c ∧ dv_data (gz_dev C (drop g)) = h1 ++ e) ∧
    ((∀ n m, ans n m ≠ None) → dv_data (gz_dev C (drop g)) = gz_body bl synced ++ gz_tail bl synced)) as Hdrop.
  { intros bl synced g1 c s Hg -> <-. by apply (gz_drop_spec ans C c_end c_crc). }
  destruct H as [(-> & w1 & w2 & (bl & Hbl & Hne & Hb0 & Hg) & Hf & ->)|(-> & w1 & t & (bl & <- & Hne & Hb0 & Hg) & Hp & H)].
  - destruct (gz_flush_spec ans C c_sync _ _ _ _ _ Hg Hf) as (_ & [(_ & Hg2 & Hh2 & Hp2)|(? & _)]); [|done].
    destruct (Hdrop bl true w2 _ _ Hg2) as (H1 & H2 & H3).
    { unfold gz_body. destruct (gz_blocks C c_step c_new bl). cbn. by rewrite <- app_assoc. }
    { unfold gz_tail. by destruct (gz_blocks C c_step c_new bl). }
    exists bl, true. split; [done|]. split; [by rewrite Hbl|]. split; [left; by destruct H2 as [?|[? _]]|]. split; [|auto]. intros _. split; [done|]. split; [done|].
    etrans; [|exact H1]. destruct Hg2 as (_ & Hs & _). rewrite Hh2, Hp2 in Hs. cbn in Hs. rewrite app_nil_r in Hs. rewrite Hs.
    unfold gz_body. destruct (gz_blocks C c_step c_new bl). cbn. by rewrite <- app_assoc.
  - assert (gz_header ++ (gz_blocks C c_step c_new bl).2 = gz_body bl false ∧
      c_end (gz_blocks C c_step c_new bl).1 ++ c_crc (gz_blocks C c_step c_new bl).1 = gz_tail bl false) as [Hbo Ht0].
    { unfold gz_body, gz_tail. destruct (gz_blocks C c_step c_new bl). cbn. by rewrite app_nil_r. }
    assert (∀ w, gz_is C w (gz_blocks C c_step c_new bl).1 (gz_header ++ (gz_blocks C c_step c_new bl).2) → (gz_hdr C w ≠ [] → bl = []) → g = drop w →
      ∃ synced, dv_data (gz_dev C g) `prefix_of` gz_body bl synced ++ gz_tail bl synced ∨
        bl = [] ∧ ∃ h1 h2 e, gz_header = h1 ++ h2 ∧ h2 ≠ [] ∧ e `prefix_of` c_end c_new ∧ dv_data (gz_dev C g) = h1 ++ e) as Hcase.
    { intros w Hw Hbw ->. exists false. destruct (Hdrop bl false w _ _ Hw Hbo Ht0) as (_ & [?|[Hx (h1 & h2 & e & Hh & Hh2 & He & Hd)]] & _); [by left|]. right.
      pose proof (Hbw Hx) as Hbl. split; [done|]. rewrite Hbl in Hh, He. cbn in Hh, He. rewrite app_nil_r in Hh. by exists h1, h2, e. }
    assert (∃ synced, dv_data (gz_dev C g) `prefix_of` gz_body bl synced ++ gz_tail bl synced ∨
        bl = [] ∧ ∃ h1 h2 e, gz_header = h1 ++ h2 ∧ h2 ≠ [] ∧ e `prefix_of` c_end c_new ∧ dv_data (gz_dev C g) = h1 ++ e) as (synced & Hs).
    { destruct H as [->|(w2 & Hf & ->)]; [by eapply Hcase|].
      destruct (gz_flush_spec ans C c_sync _ _ _ _ _ Hg Hf) as (_ & [(? & _)|(_ & [[Hg2 Hx]|[Hg2 Hh2]] & _)]); [done|eapply Hcase; [exact Hg2|auto|done]|].
      exists true. left. destruct (Hdrop bl true w2 _ _ Hg2) as (_ & [?|[? _]] & _); [| |done|done].
      - unfold gz_body. destruct (gz_blocks C c_step c_new bl). cbn. by rewrite <- app_assoc.
      - unfold gz_tail. by destruct (gz_blocks C c_step c_new bl). }
    exists bl, synced. split_and!; [done|done| |done|]; [destruct Hs as [?|[? ?]]; auto|]. intros Hno. by specialize (Hok Hno).
Qed.

(** For every compressor whose end is not empty (gzip ends with a checksum) and every text: some
    device makes the write report success although the end of the stream is missing. *)
Theorem C89_gzip_refuted (cap : nat) (ps : list (list N)) : (∀ c, c_end c ++ c_crc c ≠ []) →
  ∃ ans bl, write_gz_dev ans cap true ps = (true, gz_body bl true) ∧ concat bl = concat ps ∧ Forall (λ b, b ≠ []) bl ∧ gz_tail bl true ≠ [].
Proof.
  intros Hend. set (ans := λ (_ _ : nat), Some 0).
  set (put := gz_put ans C c_step). set (flush := gz_flush ans C c_sync). set (g0 := gz_new gz_header C c_new).
  assert (∀ d bs, (dev_put ans d 0 bs).2 = true) as Hd.
  { intros d bs. destruct (dev_put ans d 0 bs) as [[w' rest] ok] eqn:Ep. cbn. destruct (dev_put_spec _ _ _ _ _ _ _ Ep) as (_ & _ & _ & H4).
    destruct ok; [done|]. destruct (H4 eq_refl) as (n & m & Hn). done. }
  destruct (write_pieces put cap (BufW [] g0) ps) as [b1 ok1] eqn:E1.
  destruct (bw_flush put flush b1) as [b2 ok2] eqn:E2.
  assert (write_buf put flush (gz_drop ans C c_end c_crc) cap g0 ps = (bw_drop put (gz_drop ans C c_end c_crc) (if ok1 then b2 else b1), if ok1 then ok2 else false)) as Hw.
  { unfold write_buf. rewrite E1. destruct ok1; [|done]. by rewrite E2. }
  assert (ok1 = true ∧ ok2 = true) as [-> ->].
  { destruct (C89_gzip_partial ans cap ps (if ok1 then ok2 else false) (dv_data (gz_dev C (bw_drop put (gz_drop ans C c_end c_crc) (if ok1 then b2 else b1)))))
      as (bl0 & sy0 & _ & _ & _ & _ & Hno). { unfold M_Write.write_gz_dev. fold put flush g0. by rewrite Hw. }
    destruct Hno as [Hok _]; [done|]. destruct ok1; [done|done]. }
  pose proof (gz_inv_put ans gz_header C c_new c_step) as Hput.
  destruct (write_pieces_spec put cap (gz_inv gz_header C c_new c_step) Hput (λ w, eq_refl) ps (BufW [] g0) [] b1 true) as [[_ Hb1]|[? _]]; [|exact E1| |done].
  { exists []. split; [apply gz_inv_new|done]. }
  cbn [app] in Hb1. unfold bw_flush in E2. destruct (bw_flush_buf put b1) as [b3 ok3] eqn:E3.
  destruct (bw_flush_buf_spec put (gz_inv gz_header C c_new c_step) Hput b1 _ b3 ok3 Hb1 E3) as [_ H3]. destruct ok3; [|done].
  destruct (H3 eq_refl) as [Hbuf (bl & Hbl & Hne & _ & Hg)]. destruct (flush (bw_inner b3)) as [w2 ok4] eqn:E4. injection E2 as <- ->.
  destruct (gz_flush_spec ans C c_sync _ _ _ _ _ Hg E4) as (_ & [(_ & Hg2 & Hh2 & Hp2)|(? & _)]); [|done].
  set (K := dv_calls (gz_dev C w2)). exists (stop_after ans K), bl.
  destruct (pieces_agree put (gz_put (stop_after ans K) C c_step) (λ g, dv_calls (gz_dev C g)) cap K
    (λ w bs, proj1 (gz_put_stop ans K C c_step w bs)) (λ w bs, proj2 (gz_put_stop ans K C c_step w bs)) ps (BufW [] g0)) as [Hm1 Ha1].
  destruct (flush_agree put (gz_put (stop_after ans K) C c_step) flush (gz_flush (stop_after ans K) C c_sync) (λ g, dv_calls (gz_dev C g)) K
    (λ w bs, proj1 (gz_put_stop ans K C c_step w bs)) (λ w, proj1 (gz_flush_stop ans K C c_sync w))
    (λ w bs, proj2 (gz_put_stop ans K C c_step w bs)) (λ w, proj2 (gz_flush_stop ans K C c_sync w)) b1) as [Hm2 Ha2].
  rewrite E1 in Hm1, Ha1. unfold bw_flush in Hm2 at 1, Ha2 at 1 3. rewrite E3, E4 in Hm2, Ha2. cbn [fst bw_inner] in Hm1, Ha1, Hm2, Ha2.
  split; [|split; [done|split; [done|unfold gz_tail; by destruct (gz_blocks C c_step c_new bl)]]].
  unfold M_Write.write_gz_dev, write_buf. fold g0. rewrite Ha1 by (subst K; lia). rewrite Ha2 by (subst K; lia). f_equal.
  unfold bw_drop, bw_flush_buf. cbn [bw_inner bw_buf]. rewrite Hbuf. cbn [gz_put fst bw_inner].
  assert (gz_body bl true = dv_data (gz_dev C w2)) as ->.
  { destruct Hg2 as (_ & Hs & _). rewrite Hh2, Hp2 in Hs. cbn in Hs. rewrite app_nil_r in Hs. rewrite Hs.
    unfold gz_body. destruct (gz_blocks C c_step c_new bl). cbn. by rewrite <- app_assoc. }
  destruct Hg2 as (_ & _ & _ & Hend2). set (ans2 := stop_after ans K).
  assert (∀ bs d rest ok, dev_put ans2 (gz_dev C w2) 0 bs = (d, rest, ok) → dv_data d = dv_data (gz_dev C w2) ∧ (bs ≠ [] → ok = false) ∧
    rest = bs ∧ K ≤ dv_calls d) as Hst.
  { intros [|b bs] d rest ok; cbn [dev_put]; [by intros [= <- <- <-]|]. unfold ans2, stop_after. replace (dv_calls (gz_dev C w2) <? K) with false by (symmetry; apply Nat.ltb_ge; subst K; lia).
    intros [= <- <- <-]. cbn. split_and!; [done|done|done|subst K; lia]. }
  assert (∀ bs d0, K ≤ dv_calls d0 → dv_data (dev_put ans2 d0 0 bs).1.1 = dv_data d0) as Hst2.
  { intros [|b bs] d0 Hd0; [done|]. by apply dev_put_stopped. }
  unfold gz_drop, gz_try_finish, gz_write_header. rewrite Hh2, dev_put_nil. unfold gz_finish at 2. unfold gz_dump at 1. cbn [gz_pend gz_dev gz_comp gz_hdr gz_ended].
  rewrite Hp2, dev_put_nil. cbn [gz_pend gz_dev gz_comp gz_hdr gz_ended]. rewrite Hend2. unfold gz_dump at 1. cbn [gz_pend gz_dev gz_comp gz_hdr gz_ended].
  destruct (dev_put ans2 (gz_dev C w2) 0 (c_end (gz_comp C w2))) as [[d rest] ok] eqn:Ee. destruct (Hst _ _ _ _ Ee) as (Hdw & Hfw & Hr & HKd). destruct ok.
  - cbn [gz_dev gz_comp]. pose proof (Hst2 (c_crc (gz_comp C w2)) d HKd) as Hcrc.
    destruct (dev_put ans2 d 0 (c_crc (gz_comp C w2))) as [[d3 rest3] ok3] eqn:E5. cbn [fst] in Hcrc |- *.
    destruct rest as [|x rest]; [|exfalso; assert (c_end (gz_comp C w2) ≠ []) as Hx by (by rewrite <- Hr); by apply Hfw in Hx].
    unfold gz_finish, gz_dump. cbn [gz_pend gz_dev gz_comp gz_hdr gz_ended fst]. rewrite dev_put_nil. cbn [gz_ended fst gz_dev]. congruence.
  - cbn [fst]. unfold gz_finish, gz_dump. cbn [gz_pend gz_dev gz_comp gz_hdr gz_ended].
    pose proof (Hst2 rest d HKd) as Hr2. destruct (dev_put ans2 d 0 rest) as [[d4 rest4] ok4]. cbn [fst gz_ended] in Hr2 |- *. destruct ok4; cbn [fst gz_dev]; congruence.
Qed.

(** A decoder fits the compressor: it restores the text of a complete stream, and on a stream cut
    short it delivers a part of the text and then an error. *)
Definition gz_codec (gz_dec : reader → reader) : Prop := ∀ bl synced, Forall (λ b, b ≠ []) bl →
  gz_dec (Reader (gz_body bl synced ++ gz_tail bl synced) true) = Reader (concat bl) true ∧
  ∀ p, p `prefix_of` gz_body bl synced ++ gz_tail bl synced → p ≠ gz_body bl synced ++ gz_tail bl synced →
    ∃ t, gz_dec (Reader p true) = Reader t false ∧ t `prefix_of` concat bl.

(** After a reported success, reading either delivers the whole text or ends in an error. *)
Theorem C89_gzip_read (gz_dec : reader → reader) (ans : nat → nat → option nat) (cap : nat) (ps : list (list N)) (data : list N) :
  gz_codec gz_dec → write_gz_dev ans cap true ps = (true, data) →
  gz_dec (Reader data true) = Reader (concat ps) true ∨ ∃ t, gz_dec (Reader data true) = Reader t false ∧ t `prefix_of` concat ps.
Proof.
  intros Hc H. destruct (C89_gzip_partial ans cap ps true data H) as (bl & synced & Hne & _ & [Hp|[? _]] & Hok & _); [|done]. destruct (Hok eq_refl) as (Hbl & _ & _).
  destruct (Hc bl synced Hne) as [H1 H2]. destruct (decide (data = gz_body bl synced ++ gz_tail bl synced)) as [->|Hn].
  - left. by rewrite H1, Hbl.
  - right. rewrite <- Hbl. by apply H2.
Qed.

(** Lines that survive a cut. *)
Lemma prefix_byte_lines (ls : list (list N)) : Forall (λ l, 10%N ∉ l) ls → ∀ t, t `prefix_of` concat ((λ l, l ++ [10%N]) <$> ls) →
  ∃ k tail, byte_lines t (take k ls) tail.
Proof.
  induction 1 as [|l ls Hl Hls IH]; intros t [r Hr]; cbn [fmap list_fmap concat] in Hr.
  - exists 0, []. destruct t; [|done]. split_and!; [done|constructor|set_solver].
  - destruct (decide (length (l ++ [10%N]) ≤ length t)) as [Hle|Hlt].
    + assert (∃ t', t = (l ++ [10%N]) ++ t') as [t' ->].
      { exists (drop (length (l ++ [10%N])) t). rewrite <- (take_drop (length (l ++ [10%N])) t) at 1. f_equal.
        apply (f_equal (take (length (l ++ [10%N])))) in Hr. by rewrite take_app, take_app_le in Hr. }
      rewrite <- (app_assoc (l ++ [10%N])) in Hr. apply app_inv_head in Hr. destruct (IH t') as (k & tail & Ht & HF & Hta); [by exists r|].
      exists (S k), tail. cbn [take]. split_and!; [|by constructor|done]. cbn [fmap list_fmap concat]. rewrite Ht at 1. by rewrite !app_assoc.
    + exists 0, t. split_and!; [done|constructor|]. rewrite app_length in Hlt. cbn in Hlt.
      assert (∃ r', l = t ++ r') as [r' ->]; [|set_solver]. exists (drop (length t) l). rewrite <- (take_drop (length t) l) at 1. f_equal.
      apply (f_equal (take (length t))) in Hr. rewrite <- app_assoc in Hr. rewrite take_app, take_app_le in Hr by lia. done.
Qed.

(** So a list of vertices can be lost: the write reports success and reading it back panics. *)
Theorem C89_lost_refuted (gz_dec : reader → reader) (cap : nat) (l : list N) : gz_codec gz_dec → (∀ c, c_end c ++ c_crc c ≠ []) → (∀ x, x ∈ l → (x < u32_mod)%N) →
  ∃ ans data, write_gz_dev ans cap true (vec_pieces l) = (true, data) ∧ vec_from_buf (gz_dec (Reader data true)) = Panic.
Proof.
  intros Hc Hend Hl. destruct (C89_gzip_refuted cap (vec_pieces l) Hend) as (ans & bl & Hw & Hbl & Hne & Ht). exists ans, (gz_body bl true). split; [done|].
  destruct (Hc bl true Hne) as [_ H2]. destruct (H2 (gz_body bl true)) as (t & -> & Hp); [by eexists| |].
  { intros He. rewrite <- (app_nil_r (gz_body bl true)) in He at 1. by apply app_inv_head in He. }
  rewrite Hbl in Hp. unfold vec_pieces in Hp.
  assert (((λ u, fmt_u32 u ++ [10%N]) <$> l) = (λ s, s ++ [10%N]) <$> (fmt_u32 <$> l)) as He by (by rewrite <- list_fmap_compose). rewrite He in Hp.
  apply prefix_byte_lines in Hp as (k & tail & Hb).
  2:{ apply Forall_forall. intros s (x & -> & _)%elem_of_list_fmap Hin. apply fmt_u32_no_lf in Hin. lia. }
  apply C76_vertices_partial. cbn [rd_bytes rd_ok]. exists (take k (fmt_u32 <$> l)), tail, (length (take k (fmt_u32 <$> l))).
  split; [done|]. split; [|right; split; [done|by left]]. intros j s _ Hs.
  apply elem_of_list_lookup_2, elem_of_take in Hs as (i & Hi & _). apply elem_of_list_lookup_2 in Hi.
  apply elem_of_list_fmap in Hi as (x & -> & Hx). exists (fmt_u32 x). split.
  - destruct (utf8_ascii (fmt_u32 x) (ascii_fmt x)) as [E Hs]. split; [done|]. left. split; [done|]. intros t' Ht'.
    assert (13%N ∈ fmt_u32 x) as Hin by (rewrite Ht'; set_solver). apply fmt_u32_no_lf in Hin. lia.
  - exists x, [], (fmt_u32 x), []. rewrite app_nil_r. split_and!; [done|constructor|constructor|]. by apply fmt_u32_denotes, Hl.
Qed.
End gzip.

(** ** Examples: a toy compressor that stores each byte plus one, 0 at the end, and as checksum another 0. *)
Definition ex_step (c : unit) (bs : list N) : unit * list N := (tt, N.succ <$> bs).
Definition ex_sync (c : unit) : unit * list N := (tt, []).
Definition ex_end (c : unit) : list N := [0%N].
Fixpoint ex_undo (bs : list N) : list N * bool :=
  match bs with
  | [] => ([], false)
  | b :: bs => if (b =? 0)%N then ([], bool_decide (bs = [0%N])) else let '(t, ok) := ex_undo bs in (N.pred b :: t, ok)
  end.
Definition ex_dec (r : reader) : reader := let '(t, ok) := ex_undo (rd_bytes r) in Reader t ok.
Lemma ex_undo_full bs : ex_undo ((N.succ <$> bs) ++ [0; 0]%N) = (bs, true).
Proof.
  induction bs as [|b bs IH]; [done|]. cbn [fmap list_fmap app ex_undo]. replace (N.succ b =? 0)%N with false by (symmetry; apply N.eqb_neq; lia).
  rewrite IH, N.pred_succ. done.
Qed.
Lemma ex_undo_cut bs : ∀ p, p `prefix_of` (N.succ <$> bs) ++ [0; 0]%N → p ≠ (N.succ <$> bs) ++ [0; 0]%N → ∃ t, ex_undo p = (t, false) ∧ t `prefix_of` bs.
Proof.
  induction bs as [|b bs IH]; intros [|c p] Hp Hn; try (by exists []; split; [|apply prefix_nil]).
  - cbn in *. assert (c = 0%N) as -> by (by eapply prefix_cons_inv_1). apply prefix_cons_inv_2 in Hp. exists [].
    rewrite bool_decide_false by (intros ->; done). done.
  - cbn [fmap list_fmap app] in *. assert (c = N.succ b) as -> by (by eapply prefix_cons_inv_1). apply prefix_cons_inv_2 in Hp.
    destruct (IH p Hp) as (t & Ht & Hpt); [by intros ->|]. exists (b :: t). cbn [ex_undo].
    replace (N.succ b =? 0)%N with false by (symmetry; apply N.eqb_neq; lia). rewrite Ht, N.pred_succ. split; [done|]. by apply prefix_cons.
Qed.
Example ex_C89_codec : gz_codec [] unit tt ex_step ex_sync ex_end ex_end ex_dec ∧ ∀ c, ex_end c ++ ex_end c ≠ [].
Proof.
  split; [|done]. intros bl synced _.
  assert (∀ bl, gz_blocks unit ex_step tt bl = (tt, N.succ <$> concat bl)) as Hb.
  { clear. induction bl as [|b bl IH]; [done|]. cbn [gz_blocks ex_step]. rewrite IH. cbn [concat]. by rewrite fmap_app. }
  assert (gz_body [] unit tt ex_step ex_sync bl synced ++ gz_tail unit tt ex_step ex_sync ex_end ex_end bl synced = (N.succ <$> concat bl) ++ [0; 0]%N) as ->.
  { unfold gz_body, gz_tail. rewrite Hb. cbn [app]. destruct synced; cbn; by rewrite app_nil_r. }
  unfold ex_dec. cbn [rd_bytes]. split; [by rewrite ex_undo_full|]. intros p Hp Hn. destruct (ex_undo_cut _ p Hp Hn) as (t & -> & Ht). eauto.
Qed.

(** Disks with room for 5, 8, 9 and 10 bytes, a buffer of 4 bytes, and the list 10, 3, 25 (8 bytes). *)
Definition ex_room (R : nat) : nat → nat → option nat := λ _ m, if m <? R then Some (R - m - 1) else None.
Example ex_C89_text :
  write_txt_dev (ex_room 5) 4 true (vec_pieces [10; 3; 25]%N) = (false, [49; 48; 10; 51; 10]%N) ∧
  write_txt_dev (ex_room 8) 4 true (vec_pieces [10; 3; 25]%N) = (true, vec_write [10; 3; 25]%N).
Proof. vm_compute. done. Qed.
Example ex_C89_gzip :
  (write_gz_dev (ex_room 5) [] unit tt ex_step ex_sync ex_end ex_end 4 true (vec_pieces [10; 3; 25]%N)).1 = false ∧
  (∃ data, write_gz_dev (ex_room 9) [] unit tt ex_step ex_sync ex_end ex_end 4 true (vec_pieces [10; 3; 25]%N) = (true, data) ∧
    vec_from_buf (ex_dec (Reader data true)) = Panic) ∧
  ∃ data, write_gz_dev (ex_room 10) [] unit tt ex_step ex_sync ex_end ex_end 4 true (vec_pieces [10; 3; 25]%N) = (true, data) ∧
    vec_from_buf (ex_dec (Reader data true)) = Ok (IoOk [10; 3; 25]%N).
Proof. split; [vm_compute; done|]. split; eexists; (split; [vm_compute; reflexivity|vm_compute; reflexivity]). Qed.

(** A device that fails three times within the header [9, 9] and then recovers. *)
Example ex_C89_header : write_gz_dev (λ n _, if n =? 0 then Some 0 else if n <? 4 then None else Some 5)
  [9; 9]%N unit tt ex_step ex_sync ex_end ex_end 4 true (vec_pieces [10]%N) = (false, [9; 0]%N).
Proof. vm_compute. reflexivity. Qed.

Print Assumptions C89_texts.
Print Assumptions C89_text_file.
Print Assumptions C89_gzip_partial.
Print Assumptions C89_gzip_refuted.
Print Assumptions C89_gzip_read.
Print Assumptions C89_lost_refuted.
