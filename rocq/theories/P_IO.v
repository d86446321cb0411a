(** Proofs about the readers and writers of io.rs. *)
From Verif Require Import Base M_Graph M_Iterators M_EditGraph M_IO S_IO Spec S_Graph P_EditGraph P_EditGraph2 P_Graph P_Iterators P_Adds T_EditGraph.

Local Notation digit := (λ c : N, 48 <= c ∧ c <= 57)%N.

(** ** Numbers *)
Lemma parse_digits_spec s : ∀ acc n, (acc < u32_mod)%N →
  parse_digits acc s = Some n ↔ Forall digit s ∧ n = (acc * 10 ^ N.of_nat (length s) + dec_value s)%N ∧ (n < u32_mod)%N.
Proof.
  induction s as [|c s IH]; intros acc n Hacc; cbn [parse_digits dec_value length].
  - rewrite N.pow_0_r, N.mul_1_r, N.add_0_r. split; [intros [= <-]; done|]. intros (_ & -> & _). done.
  - assert (10 ^ N.of_nat (S (length s)) = 10 * 10 ^ N.of_nat (length s))%N as Hpow by (by rewrite Nat2N.inj_succ, N.pow_succ_r').
    pose proof (N.pow_nonzero 10 (N.of_nat (length s)) ltac:(done)) as Hnz. set (P := (10 ^ N.of_nat (length s))%N) in *.
    destruct (((48 <=? c) && (c <=? 57))%N) eqn:Ec.
    + apply andb_true_iff in Ec as [H1%N.leb_le H2%N.leb_le].
      assert (∀ x, (x * P + dec_value s < u32_mod → x < u32_mod)%N) as Hmono by (intros x Hx; nia).
      assert ((acc * 10 + (c - 48)) * P + dec_value s = acc * (10 * P) + ((c - 48) * P + dec_value s))%N as Heq by nia.
      rewrite Hpow, Forall_cons. destruct (N.ltb_spec (acc * 10) u32_mod) as [H3|H3].
      * destruct (N.ltb_spec (acc * 10 + (c - 48)) u32_mod) as [H4|H4].
        -- rewrite (IH _ n H4), Heq. tauto.
        -- split; [done|]. intros (_ & -> & Hlt). rewrite <- Heq in Hlt. apply Hmono in Hlt. lia.
      * split; [done|]. intros (_ & -> & Hlt). rewrite <- Heq in Hlt. apply Hmono in Hlt. lia.
    + split; [done|]. intros (Hd & _). apply Forall_cons in Hd as [[H1 H2] _].
      apply N.leb_le in H1, H2. rewrite H1, H2 in Ec. done.
Qed.

Lemma parse_u32_spec s n : parse_u32 s = Some n ↔ denotes s n.
Proof.
  assert (∀ s n, parse_digits 0 s = Some n ↔ Forall digit s ∧ n = dec_value s ∧ (n < u32_mod)%N) as Hp.
  { intros s' n'. rewrite (parse_digits_spec s' 0 n') by done. by rewrite N.mul_0_l, N.add_0_l. }
  unfold denotes. change 4294967296%N with u32_mod. destruct s as [|c [|d s]]; cbn [parse_u32].
  - split; [done|]. intros (ds & [<-|?] & ? & _); done.
  - destruct (N.eqb_spec c 43) as [->|H43]; [|destruct (N.eqb_spec c 45) as [->|H45]]; cbn [orb].
    + split; [done|]. intros (ds & [<-|[= <-]] & Hne & Hd & _); [|done]. apply Forall_cons in Hd as [[? ?] _]. lia.
    + split; [done|]. intros (ds & [<-|[=]] & Hne & Hd & _). apply Forall_cons in Hd as [[? ?] _]. lia.
    + rewrite Hp. split.
      * intros (? & ? & ?). exists [c]. split_and!; [by left|done|done|done|done].
      * intros (ds & [<-|[= -> ->]] & Hne & ?); [done|done].
  - destruct (N.eqb_spec c 43) as [->|H43].
    + rewrite Hp. split.
      * intros (? & ? & ?). exists (d :: s). split_and!; [by right|done|done|done|done].
      * intros (ds & [<-|[= <-]] & Hne & Hd & ?); [|done]. apply Forall_cons in Hd as [[? ?] _]. lia.
    + rewrite Hp. split.
      * intros (? & ? & ?). exists (c :: d :: s). split_and!; [by left|done|done|done|done].
      * intros (ds & [<-|[= -> ->]] & Hne & ?); [done|done].
Qed.

Lemma denotes_fun s n n' : denotes s n → denotes s n' → n = n'.
Proof. rewrite <- !parse_u32_spec. congruence. Qed.

Lemma fmt_digits_spec fuel : ∀ x acc, (x < 2 ^ N.of_nat fuel)%N → Forall digit acc →
  Forall digit (fmt_digits fuel x acc) ∧ fmt_digits fuel x acc ≠ [] ∧
  dec_value (fmt_digits fuel x acc) = (x * 10 ^ N.of_nat (length acc) + dec_value acc)%N.
Proof.
  assert (∀ x acc, (x < 10)%N → Forall digit acc → Forall digit ((48 + x mod 10)%N :: acc) ∧ (48 + x mod 10)%N :: acc ≠ [] ∧
    dec_value ((48 + x mod 10)%N :: acc) = (x * 10 ^ N.of_nat (length acc) + dec_value acc)%N) as Hlast.
  { intros x acc Hx Hacc. rewrite N.mod_small by done. split_and!; [constructor; [lia|done]|done|]. cbn [dec_value]. f_equal. f_equal. lia. }
  induction fuel as [|fuel IH]; intros x acc Hx Hacc; cbn [fmt_digits].
  - apply Hlast; [|done]. cbn in Hx. lia.
  - destruct (N.eqb_spec (x / 10) 0) as [E|E].
    + apply Hlast; [|done]. by apply N.div_small_iff in E.
    + pose proof (N.mod_lt x 10 ltac:(done)) as Hm. pose proof (N.div_mod x 10 ltac:(done)) as Hdm.
      assert (x / 10 < 2 ^ N.of_nat fuel)%N as Hlt. { rewrite Nat2N.inj_succ, N.pow_succ_r' in Hx.
        clear -Hx Hdm. generalize dependent (x / 10)%N. generalize dependent (x mod 10)%N. generalize dependent (2 ^ N.of_nat fuel)%N. intros. lia. }
      destruct (IH (x / 10)%N ((48 + x mod 10)%N :: acc) Hlt) as (H1 & H2 & H3); [constructor; [clear -Hm; generalize dependent (x mod 10)%N; intros; lia|done]|].
      split_and!; [done|done|]. rewrite H3. cbn [dec_value length]. rewrite Nat2N.inj_succ, N.pow_succ_r'.
      set (P := (10 ^ N.of_nat (length acc))%N). replace (48 + x mod 10 - 48)%N with (x mod 10)%N by (clear; generalize (x mod 10)%N; intros; lia).
      clear -Hdm. generalize dependent (x / 10)%N. generalize dependent (x mod 10)%N. intros r q ->. nia.
Qed.
Lemma fmt_u32_digits x : Forall digit (fmt_u32 x) ∧ fmt_u32 x ≠ [] ∧ dec_value (fmt_u32 x) = x.
Proof.
  unfold fmt_u32. destruct (fmt_digits_spec (N.size_nat x) x []) as (H1 & H2 & H3); [|constructor|].
  - destruct x as [|p]; [done|]. replace (N.of_nat (N.size_nat (N.pos p))) with (N.size (N.pos p)); [apply N.size_gt|].
    cbn. induction p as [p IH|p IH|]; cbn in *; lia.
  - split_and!; [done|done|]. rewrite H3. cbn. lia.
Qed.
Lemma fmt_u32_denotes x : (x < u32_mod)%N → denotes (fmt_u32 x) x.
Proof. intros Hx. destruct (fmt_u32_digits x) as (H1 & H2 & H3). exists (fmt_u32 x). split_and!; [by left|done|done|done|done]. Qed.

(** ** Whitespace *)
Lemma is_whitespace_spec c : is_whitespace c = true ↔ blank c.
Proof.
  unfold is_whitespace, blank. rewrite !orb_true_iff, !andb_true_iff, !orb_true_iff, !andb_true_iff, !N.eqb_eq, !N.leb_le, N.ltb_lt.
  rewrite !elem_of_cons, elem_of_nil. lia.
Qed.
Local Notation ws w := (Forall (λ c, is_whitespace c = true) w).
Local Notation nows a := (Forall (λ c, is_whitespace c = false) a).
Lemma ws_blank w : ws w ↔ Forall blank w.
Proof. rewrite !Forall_forall. by setoid_rewrite is_whitespace_spec. Qed.
Lemma denotes_nows a n : denotes a n → a ≠ [] ∧ nows a.
Proof.
  intros (ds & Hs & Hne & Hd & _).
  assert (nows ds) as Hn.
  { eapply Forall_impl; [exact Hd|]. intros c [H1 H2]. apply not_true_is_false. rewrite is_whitespace_spec. unfold blank.
    rewrite !elem_of_cons, elem_of_nil. lia. }
  destruct Hs as [->| ->]; [done|]. split; [done|]. constructor; [done|done].
Qed.

Lemma span_list (P : N → bool) l : ∃ w l', l = w ++ l' ∧ Forall (λ c, P c = true) w ∧ (l' = [] ∨ ∃ c t, l' = c :: t ∧ P c = false).
Proof.
  induction l as [|c l (w & l' & -> & Hw & Hl')]; [exists [], []; auto|]. destruct (P c) eqn:E.
  - exists (c :: w), l'. auto.
  - exists [], (c :: w ++ l'). eauto 10.
Qed.
Lemma span_list_neg (P : N → bool) l : ∃ w l', l = w ++ l' ∧ Forall (λ c, P c = false) w ∧ (l' = [] ∨ ∃ c t, l' = c :: t ∧ P c = true).
Proof.
  induction l as [|c l (w & l' & -> & Hw & Hl')]; [exists [], []; auto|]. destruct (P c) eqn:E.
  - exists [], (c :: w ++ l'). eauto 10.
  - exists (c :: w), l'. auto.
Qed.

Lemma split_from_nows a tok t : nows a → split_from tok (a ++ t) = split_from (tok ++ a) t.
Proof.
  intros Ha. revert tok. induction Ha as [|c a Hc Ha IH]; intros tok; [by rewrite app_nil_r|].
  cbn [app split_from]. rewrite Hc, IH. by rewrite <- app_assoc.
Qed.
Lemma split_ws_skip w l : ws w → split_whitespace (w ++ l) = split_whitespace l.
Proof.
  induction 1 as [|c w Hc Hw IH]; [done|]. unfold split_whitespace in *. cbn [app split_from]. rewrite Hc.
  by rewrite filter_cons_False by (intros Hn; by apply Hn).
Qed.
Lemma split_ws_nil w : ws w → split_whitespace w = [].
Proof. intros Hw. rewrite <- (app_nil_r w), split_ws_skip by done. done. Qed.
Lemma split_ws_last a : nows a → a ≠ [] → split_whitespace a = [a].
Proof.
  intros Ha Hne. unfold split_whitespace. rewrite <- (app_nil_r a) at 1. rewrite split_from_nows by done. cbn [app split_from].
  by rewrite filter_cons_True.
Qed.
Lemma split_ws_cons a c l : nows a → a ≠ [] → is_whitespace c = true → split_whitespace (a ++ c :: l) = a :: split_whitespace l.
Proof.
  intros Ha Hne Hc. unfold split_whitespace. rewrite split_from_nows by done. cbn [app split_from]. rewrite Hc. by rewrite filter_cons_True.
Qed.
(** Every line starts with blanks and then either ends or goes on with a token. *)
Lemma split_ws_inv l : (ws l ∧ split_whitespace l = []) ∨
  ∃ w a l', l = w ++ a ++ l' ∧ ws w ∧ nows a ∧ a ≠ [] ∧ (l' = [] ∨ ∃ c t, l' = c :: t ∧ is_whitespace c = true) ∧
    split_whitespace l = a :: split_whitespace l'.
Proof.
  destruct (span_list is_whitespace l) as (w & l1 & -> & Hw & [->|(c & t & -> & Hc)]).
  - left. rewrite app_nil_r. split; [done|]. by apply split_ws_nil.
  - right. destruct (span_list_neg is_whitespace t) as (a & l' & -> & Ha & Hl'). exists w, (c :: a), l'.
    split_and!; [done|done|by constructor|done|done|]. rewrite split_ws_skip by done. destruct Hl' as [->|(d & t & -> & Hd)].
    + rewrite app_nil_r. by rewrite split_ws_last by (by constructor || done).
    + change (c :: a ++ d :: t) with ((c :: a) ++ d :: t). rewrite split_ws_cons; [|by constructor|done|done].
      f_equal. unfold split_whitespace. cbn [split_from]. rewrite Hd. by rewrite filter_cons_False by (intros Hn; by apply Hn).
Qed.

Lemma trim_start_ws w l : ws w → trim_start (w ++ l) = trim_start l.
Proof. induction 1 as [|c w Hc Hw IH]; [done|]. cbn [app trim_start]. by rewrite Hc. Qed.
Lemma trim_start_stop l : (l = [] ∨ ∃ c t, l = c :: t ∧ is_whitespace c = false) → trim_start l = l.
Proof. intros [->|(c & t & -> & Hc)]; [done|]. cbn [trim_start]. by rewrite Hc. Qed.
Lemma trim_spec w1 a w2 : ws w1 → ws w2 → nows a → a ≠ [] → io_trim (w1 ++ a ++ w2) = a.
Proof.
  intros H1 H2 Ha Hne. unfold io_trim. rewrite trim_start_ws by done.
  rewrite (trim_start_stop (a ++ w2)).
  2:{ right. destruct a as [|c a]; [done|]. exists c, (a ++ w2). split; [done|]. by inversion Ha. }
  rewrite reverse_app, trim_start_ws by (by apply Forall_reverse). rewrite trim_start_stop; [apply reverse_involutive|].
  right. destruct (reverse a) as [|c t] eqn:E; [by apply (f_equal reverse) in E; rewrite reverse_involutive in E|].
  exists c, t. split; [done|]. apply Forall_reverse in Ha. rewrite E in Ha. by inversion Ha.
Qed.
Lemma trim_inv l : ∃ w1 w2, l = w1 ++ io_trim l ++ w2 ∧ ws w1 ∧ ws w2.
Proof.
  unfold io_trim. destruct (span_list is_whitespace l) as (w1 & l1 & -> & Hw1 & Hl1). rewrite (trim_start_ws w1 l1 Hw1).
  assert (trim_start l1 = l1) as -> by (by apply trim_start_stop).
  destruct (span_list is_whitespace (reverse l1)) as (w2 & l2 & E & Hw2 & Hl2). rewrite E, trim_start_ws by done.
  rewrite (trim_start_stop l2) by done. exists w1, (reverse w2). split_and!; [|done|by apply Forall_reverse].
  f_equal. by rewrite <- reverse_app, <- E, reverse_involutive.
Qed.

(** ** Lines of one vertex or one edge *)
Lemma parse_vertex_line l i : match parse_vertex (io_trim l) i with
  | IoOk u => vertex_line l u
  | IoErr e => e = BadVertex (io_trim l) i ∧ ∀ u, ¬ vertex_line l u
  end.
Proof.
  unfold parse_vertex. destruct (parse_u32 (io_trim l)) as [u|] eqn:E.
  - apply parse_u32_spec in E. destruct (trim_inv l) as (w1 & w2 & Hl & H1 & H2). exists w1, (io_trim l), w2. by rewrite <- !ws_blank.
  - split; [done|]. intros u (w1 & a & w2 & -> & H1 & H2 & Ha). rewrite <- ws_blank in H1, H2. destruct (denotes_nows a u Ha) as [Hne Hn].
    rewrite (trim_spec w1 a w2) in E by done. apply parse_u32_spec in Ha. congruence.
Qed.
Lemma nows_blank a : nows a ↔ Forall (λ c, ¬ blank c) a.
Proof. rewrite !Forall_forall. setoid_rewrite <- is_whitespace_spec. by setoid_rewrite not_true_iff_false. Qed.
Lemma line_tokens_split l a b : line_tokens l a b ↔ split_whitespace l = [a; b].
Proof.
  split.
  - intros (w0 & w1 & w2 & -> & H0 & H1 & Hne & H2 & Hane & Hbne & Han & Hbn). rewrite <- ws_blank in H0, H1, H2. rewrite <- nows_blank in Han, Hbn.
    rewrite split_ws_skip by done. destruct w1 as [|c w1]; [done|]. apply Forall_cons in H1 as [Hc H1].
    rewrite <- app_comm_cons, split_ws_cons by done. f_equal. rewrite split_ws_skip by done.
    destruct w2 as [|d w2]; [rewrite app_nil_r; by apply split_ws_last|]. apply Forall_cons in H2 as [Hd H2].
    rewrite split_ws_cons by done. by rewrite split_ws_nil.
  - intros Hs. destruct (split_ws_inv l) as [[_ E]|(w0 & a' & l1 & -> & H0 & Ha' & Hane & Hl1 & E)]; [congruence|].
    rewrite E in Hs. injection Hs as -> Hs. destruct (split_ws_inv l1) as [[_ E1]|(w1 & b' & l2 & -> & H1 & Hb' & Hbne & Hl2 & E1)]; [congruence|].
    rewrite E1 in Hs. injection Hs as -> Hs. destruct (split_ws_inv l2) as [[H2 _]|(? & ? & ? & _ & _ & _ & _ & _ & E2)]; [|congruence].
    exists w0, w1, l2. rewrite <- !ws_blank, <- !nows_blank. split_and!; try done. intros ->. cbn [app] in Hl1.
    destruct Hl1 as [Hl1|(c & t & Hl1 & Hc)]; destruct b as [|d b]; try done. injection Hl1 as -> _. apply Forall_cons in Hb' as [? _]. congruence.
Qed.
Lemma edge_line_split l e : edge_line l e ↔ ∃ a b, split_whitespace l = [a; b] ∧ denotes a e.1 ∧ denotes b e.2.
Proof. unfold edge_line. by setoid_rewrite line_tokens_split. Qed.
Lemma vertex_line_parse l u : vertex_line l u ↔ parse_u32 (io_trim l) = Some u.
Proof.
  split.
  - intros (w1 & a & w2 & -> & H1 & H2 & Ha). rewrite <- ws_blank in H1, H2. destruct (denotes_nows a u Ha) as [Hne Hn].
    rewrite (trim_spec w1 a w2) by done. by apply parse_u32_spec.
  - intros E. pose proof (parse_vertex_line l 0) as Hl. unfold parse_vertex in Hl. by rewrite E in Hl.
Qed.
Lemma vertex_line_fun l u u' : vertex_line l u → vertex_line l u' → u = u'.
Proof. rewrite !vertex_line_parse. congruence. Qed.
Lemma edge_line_fun l e e' : edge_line l e → edge_line l e' → e = e'.
Proof.
  rewrite !edge_line_split. intros (a & b & E & Ha & Hb) (a' & b' & E' & Ha' & Hb'). rewrite E in E'. injection E' as <- <-.
  destruct e, e'. f_equal; by eapply denotes_fun.
Qed.

(** ** Lines *)
Lemma lines_from_app l : 10%N ∉ l → ∀ buf t, lines_from buf (l ++ t) = lines_from (buf ++ l) t.
Proof.
  induction l as [|c l IH]; intros Hl buf t; [by rewrite app_nil_r|]. cbn [app lines_from].
  destruct (N.eqb_spec c 10) as [->|Hne]; [set_solver|]. rewrite IH by set_solver. by rewrite <- app_assoc.
Qed.
Lemma strip_cr_snoc l : strip_cr (l ++ [13%N]) = l.
Proof. unfold strip_cr. rewrite last_snoc. cbn. rewrite app_length. cbn. by rewrite Nat.add_sub, take_app. Qed.
Lemma strip_cr_id l : (∀ l', l ≠ l' ++ [13%N]) → strip_cr l = l.
Proof.
  intros Hl. unfold strip_cr. destruct (last l) as [c|] eqn:E; [|done]. destruct (N.eqb_spec c 13) as [->|]; [|done].
  apply last_Some in E as [l' ->]. by destruct (Hl l').
Qed.
Lemma text_lines_det t ls : text_lines t ls → io_lines t = ls.
Proof.
  unfold io_lines. induction 1 as [|l Hne Hl|l t ls Hl Hcr Ht IH|l t ls Hl Ht IH].
  - done.
  - rewrite <- (app_nil_r l) at 1. rewrite lines_from_app by done. cbn. by destruct l.
  - rewrite lines_from_app by done. cbn [app lines_from]. change (10 =? 10)%N with true. cbn iota. by rewrite strip_cr_id, IH.
  - replace (l ++ 13%N :: 10%N :: t) with ((l ++ [13%N]) ++ 10%N :: t) by (by rewrite <- app_assoc).
    rewrite lines_from_app by set_solver. cbn [app lines_from]. change (10 =? 10)%N with true. cbn iota. by rewrite strip_cr_snoc, IH.
Qed.
Lemma text_lines_io t : text_lines t (io_lines t).
Proof.
  remember (length t) as n eqn:Hn. assert (length t ≤ n) as Hle by lia. clear Hn. revert t Hle.
  induction n as [|n IH]; intros t Hle; [destruct t; [constructor|cbn in Hle; lia]|].
  destruct (span_list_neg (λ c, c =? 10)%N t) as (l & t1 & -> & Hl & Ht1).
  assert (10%N ∉ l) as Hnl. { intros Hin. rewrite Forall_forall in Hl. by apply Hl in Hin. }
  destruct Ht1 as [->|(c & t2 & -> & ->%N.eqb_eq)].
  - rewrite app_nil_r in *. destruct l as [|c l]; [constructor|]. rewrite (text_lines_det (c :: l) [c :: l]); by apply TL_last.
  - rewrite app_length in Hle. cbn in Hle. assert (text_lines t2 (io_lines t2)) as H2 by (apply IH; lia).
    destruct (last l) as [c|] eqn:E.
    + destruct (N.eqb_spec c 13) as [->|Hne].
      * apply last_Some in E as [l' ->]. rewrite <- app_assoc in *. cbn [app] in *. assert (10%N ∉ l') as Hnl' by set_solver.
        rewrite (text_lines_det _ (l' :: io_lines t2)); by apply TL_crlf.
      * assert (∀ l', l ≠ l' ++ [13%N]) as Hcr by (intros l' ->; rewrite last_snoc in E; congruence).
        rewrite (text_lines_det _ (l :: io_lines t2)); by apply TL_lf.
    + apply last_None in E as ->. rewrite (text_lines_det _ ([] :: io_lines t2)); (apply TL_lf; [done| |done]; intros [] ?; done).
Qed.

(** ** Readers *)
Lemma vec_load_lines_spec ls : ∀ i s,
  match vec_load_lines i s ls with
  | IoOk r => ∃ us, r = s ++ us ∧ Forall2 vertex_line ls us
  | IoErr e => ∃ us l ls', Forall2 vertex_line (take (length us) ls) us ∧ drop (length us) ls = l :: ls' ∧
      (∀ u, ¬ vertex_line l u) ∧ ∃ a, e = BadVertex a (i + length us)
  end.
Proof.
  induction ls as [|l ls IH]; intros i s; cbn [vec_load_lines].
  - exists []. by rewrite app_nil_r.
  - pose proof (parse_vertex_line l i) as Hl. destruct (parse_vertex (io_trim l) i) as [u|e].
    + specialize (IH (S i) (s ++ [u])). destruct (vec_load_lines (S i) (s ++ [u]) ls) as [r|e].
      * destruct IH as (us & -> & Hus). exists (u :: us). rewrite <- app_assoc. split; [done|by constructor].
      * destruct IH as (us & l' & ls' & H1 & H2 & H3 & a & ->). exists (u :: us), l', ls'. cbn [length take drop].
        split_and!; [by constructor|done|done|]. exists a. f_equal. lia.
    + destruct Hl as [-> Hl]. exists [], l, ls. cbn [length take drop]. split_and!; [constructor|done|done|]. exists (io_trim l). f_equal. lia.
Qed.
Lemma vset_load_lines_vec ls : ∀ i (s : gset N) l0, s = list_to_set l0 →
  vset_load_lines i s ls = match vec_load_lines i l0 ls with IoOk r => IoOk (list_to_set r) | IoErr e => IoErr e end.
Proof.
  induction ls as [|l ls IH]; intros i s l0 ->; cbn [vec_load_lines vset_load_lines]; [done|].
  destruct (parse_vertex (io_trim l) i) as [u|e]; [|done]. apply IH. rewrite list_to_set_app_L. set_solver.
Qed.

(** The error the graph reader reports for a malformed line. *)
Definition line_error (l : list N) (i : nat) (e : io_error) : Prop :=
  (e = NotTwoTokens i ∧ ∀ a b, ¬ line_tokens l a b) ∨
  (∃ a b, line_tokens l a b ∧
    ((e = BadVertex a i ∧ ∀ n, ¬ denotes a n) ∨ (e = BadVertex b i ∧ (∃ n, denotes a n) ∧ ∀ n, ¬ denotes b n))).
Lemma eg_load_lines_spec ls : ∀ i g, eg_wf g →
  match eg_load_lines i g ls with
  | Ok (IoOk h) => ∃ es, Forall2 edge_line ls es ∧ fold_res (λ h e, r ← eg_add_edge h e.1 e.2; Ok r.1) es g = Ok h
  | Ok (IoErr e) => ∃ es l ls', Forall2 edge_line (take (length es) ls) es ∧ drop (length es) ls = l :: ls' ∧
      (∀ x, ¬ edge_line l x) ∧ line_error l (i + length es) e
  | _ => False
  end.
Proof.
  induction ls as [|l ls IH]; intros i g Hg; cbn [eg_load_lines].
  - exists []. done.
  - assert (∀ e, line_error l i e → (∀ x, ¬ edge_line l x) →
      ∃ es l0 ls', Forall2 edge_line (take (length es) (l :: ls)) es ∧ drop (length es) (l :: ls) = l0 :: ls' ∧
      (∀ x, ¬ edge_line l0 x) ∧ line_error l0 (i + length es) e) as Herr.
    { intros e He Hl. exists [], l, ls. cbn [length take drop]. rewrite Nat.add_0_r. split_and!; [constructor|done|done|done]. }
    pose proof (edge_line_split l) as Hl. pose proof (line_tokens_split l) as Ht.
    destruct (split_whitespace l) as [|a [|b [|c ts]]];
      try (apply Herr; [left; split; [done|]; intros ? ? H; apply Ht in H; congruence|]; intros x Hx; apply Hl in Hx as (? & ? & ? & _); congruence).
    unfold parse_vertex. destruct (parse_u32 a) as [u|] eqn:Ea.
    2:{ assert (∀ n, ¬ denotes a n) as Hna by (intros n Hn; apply parse_u32_spec in Hn; congruence).
        apply Herr; [right; exists a, b; split; [by apply Ht|by left]|]. intros x Hx. apply Hl in Hx as (? & ? & [= <- <-] & Hx & _). by eapply Hna. }
    apply parse_u32_spec in Ea. destruct (parse_u32 b) as [v|] eqn:Eb.
    2:{ assert (∀ n, ¬ denotes b n) as Hnb by (intros n Hn; apply parse_u32_spec in Hn; congruence).
        apply Herr; [right; exists a, b; split; [by apply Ht|right; eauto]|]. intros x Hx. apply Hl in Hx as (? & ? & [= <- <-] & _ & Hx). by eapply Hnb. }
    apply parse_u32_spec in Eb.
    assert (edge_line l (u, v)) as He. { apply Hl. by exists a, b. }
    destruct (eg_add_edge_spec g u v Hg) as (g' & Hr & Hg' & _). rewrite Hr. cbn [mbind res_bind fst].
    specialize (IH (S i) g' Hg'). destruct (eg_load_lines (S i) g' ls) as [[h|e]| |]; [| |done|done].
    + destruct IH as (es & Hes & Hk). exists ((u, v) :: es). split; [by constructor|]. cbn [fold_res fst snd]. rewrite Hr. exact Hk.
    + destruct IH as (es & l' & ls' & H1 & H2 & H3 & H4). exists ((u, v) :: es), l', ls'. cbn [length take drop].
      split_and!; [by constructor|done|done|]. rewrite Nat.add_succ_comm in H4. done.
Qed.

(** ** Writers *)
Lemma fmt_u32_no_lf x c : c ∈ fmt_u32 x → (48 <= c <= 57)%N.
Proof. intros Hc. destruct (fmt_u32_digits x) as (H1 & _). rewrite Forall_forall in H1. by apply H1. Qed.
Lemma no_cr l : 13%N ∉ l → ∀ l', l ≠ l' ++ [13%N].
Proof. intros Hl l' ->. set_solver. Qed.
Lemma write_lines {A} (f : A → list N) (l : list A) : (∀ x, x ∈ l → 10%N ∉ f x ∧ 13%N ∉ f x) →
  text_lines (foldl (λ t x, t ++ f x ++ [10%N]) [] l) (f <$> l).
Proof.
  intros Hf. assert (∀ l t0, foldl (λ t x, t ++ f x ++ [10%N]) t0 l = t0 ++ foldr (λ x t, f x ++ 10%N :: t) [] l) as ->.
  { clear. intros l. induction l as [|x l IH]; intros t0; cbn [foldl foldr]; [by rewrite app_nil_r|]. rewrite IH, <- !app_assoc. done. }
  cbn [app]. induction l as [|x l IH]; [constructor|]. rewrite fmap_cons. cbn [foldr]. destruct (Hf x) as [H1 H2]; [set_solver|].
  apply TL_lf; [done|by apply no_cr|]. apply IH. intros y Hy. apply Hf. set_solver.
Qed.
