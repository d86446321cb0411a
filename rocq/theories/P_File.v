(** Facts about the byte readers and file names. *)
From Verif Require Import Base M_Graph M_Iterators M_EditGraph M_IO M_File S_IO S_File Spec P_IO.

(** ** UTF-8 *)
Lemma utf8_cons c t : utf8 (c :: t) = utf8_char c ++ utf8 t.
Proof. done. Qed.
Lemma utf8_app s t : utf8 (s ++ t) = utf8 s ++ utf8 t.
Proof. unfold utf8. by rewrite fmap_app, concat_app. Qed.
Lemma utf8_cont_spec b : utf8_cont b = true ↔ (128 <= b ∧ b <= 191)%N.
Proof. unfold utf8_cont. rewrite andb_true_iff, !N.leb_le. done. Qed.
Lemma div64 c : ∃ q r, c = (q * 64 + r)%N ∧ (r < 64)%N ∧ (c / 64 = q)%N ∧ (c mod 64 = r)%N.
Proof.
  exists (c / 64)%N, (c mod 64)%N. split_and!; [|by apply N.mod_lt|done|done]. pose proof (N.div_mod c 64). lia.
Qed.
Lemma div64_of q r : (r < 64)%N → ((q * 64 + r) / 64 = q ∧ (q * 64 + r) mod 64 = r)%N.
Proof.
  intros Hr. split; [rewrite N.div_add_l by done; rewrite (N.div_small r 64) by done; lia|].
  rewrite N.add_comm, N.mod_add by done. by apply N.mod_small.
Qed.
Lemma div4096 c : (c / 4096 = c / 64 / 64)%N.
Proof. by rewrite N.div_div by done. Qed.
Lemma div262144 c : (c / 262144 = c / 64 / 64 / 64)%N.
Proof. by rewrite !N.div_div by done. Qed.

Ltac bool_crush := rewrite ?andb_true_iff, ?utf8_cont_spec, ?N.leb_le, ?N.ltb_lt, ?N.eqb_eq.

Lemma implb_spec (a b : bool) : implb a b = true ↔ (a = true → b = true).
Proof. destruct a, b; cbn; tauto. Qed.

(** One step of the decoder. *)
Lemma from_utf8_char c bs : scalar c → from_utf8 (utf8_char c ++ bs) = cons c <$> from_utf8 bs.
Proof.
  intros Hc. unfold utf8_char. destruct (N.ltb_spec c 128) as [H1|H1].
  { cbn [app from_utf8]. by rewrite (proj2 (N.ltb_lt c 128) H1). }
  destruct (div64 c) as (q1 & r0 & E0 & Hr0 & -> & ->). destruct (N.ltb_spec c 2048) as [H2|H2].
  { cbn [app from_utf8]. destruct (N.ltb_spec (192 + q1) 128); [lia|].
    rewrite (proj2 (andb_true_iff (194 <=? 192 + q1) (192 + q1 <=? 223))%N); [|rewrite !N.leb_le; lia].
    rewrite (proj2 (utf8_cont_spec (128 + r0))) by lia. f_equal. f_equal. lia. }
  rewrite div4096, div262144. destruct (div64 q1) as (q2 & r1 & E1 & Hr1 & Hq1 & Hm1).
  assert (c / 64 = q1)%N as ->. { rewrite E0. by apply div64_of. } rewrite Hq1, Hm1.
  destruct (N.ltb_spec c 65536) as [H3|H3].
  { cbn [app from_utf8]. destruct (N.ltb_spec (224 + q2) 128); [lia|].
    rewrite (proj2 (andb_false_iff (194 <=? 224 + q2) (224 + q2 <=? 223))%N); [|rewrite !N.leb_gt; lia].
    rewrite (proj2 (andb_true_iff (224 <=? 224 + q2) (224 + q2 <=? 239))%N); [|rewrite !N.leb_le; lia].
    match goal with |- (if ?b then _ else _) = _ => assert (b = true) as -> end.
    { rewrite !andb_true_iff, !implb_spec, !utf8_cont_spec, !N.leb_le, !N.eqb_eq. unfold scalar in Hc. lia. }
    f_equal. f_equal. lia. }
  destruct (div64 q2) as (q3 & r2 & E2 & Hr2 & Hq2 & Hm2). rewrite Hq2, Hm2. cbn [app from_utf8].
  assert (c < 1114112)%N by (unfold scalar in Hc; lia).
  destruct (N.ltb_spec (240 + q3) 128); [lia|].
  rewrite (proj2 (andb_false_iff (194 <=? 240 + q3) (240 + q3 <=? 223))%N); [|rewrite !N.leb_gt; lia].
  rewrite (proj2 (andb_false_iff (224 <=? 240 + q3) (240 + q3 <=? 239))%N); [|rewrite !N.leb_gt; lia].
  match goal with |- (if ?b then _ else _) = _ => assert (b = true) as -> end.
  { rewrite !andb_true_iff, !implb_spec, !utf8_cont_spec, !N.leb_le, !N.eqb_eq. lia. }
  f_equal. f_equal. lia.
Qed.
Lemma from_utf8_utf8 t : Forall scalar t → from_utf8 (utf8 t) = Some t.
Proof. induction 1 as [|c t Hc Ht IH]; [done|]. rewrite utf8_cons, from_utf8_char by done. by rewrite IH. Qed.
Lemma utf8_char_2 b0 b1 : (194 <= b0 ∧ b0 <= 223)%N → (128 <= b1 ∧ b1 <= 191)%N →
  scalar ((b0 - 192) * 64 + (b1 - 128)) ∧ utf8_char ((b0 - 192) * 64 + (b1 - 128)) = [b0; b1].
Proof.
  intros H0 H1. destruct (div64_of (b0 - 192) (b1 - 128)) as [Hd Hm]; [lia|]. set (c := ((b0 - 192) * 64 + (b1 - 128))%N) in *.
  assert (128 <= c ∧ c < 2048)%N by lia. split; [unfold scalar; lia|]. unfold utf8_char.
  destruct (N.ltb_spec c 128); [lia|]. destruct (N.ltb_spec c 2048); [|lia]. rewrite Hd, Hm. f_equal; [lia|]. f_equal. lia.
Qed.
Lemma utf8_char_3 b0 b1 b2 : (224 <= b0 ∧ b0 <= 239)%N → (128 <= b1 ∧ b1 <= 191)%N → (128 <= b2 ∧ b2 <= 191)%N →
  (b0 = 224 → 160 <= b1)%N → (b0 = 237 → b1 <= 159)%N →
  scalar (((b0 - 224) * 64 + (b1 - 128)) * 64 + (b2 - 128)) ∧
  utf8_char (((b0 - 224) * 64 + (b1 - 128)) * 64 + (b2 - 128)) = [b0; b1; b2].
Proof.
  intros H0 H1 H2 H3 H4. destruct (div64_of ((b0 - 224) * 64 + (b1 - 128)) (b2 - 128)) as [Hd Hm]; [lia|].
  destruct (div64_of (b0 - 224) (b1 - 128)) as [Hd' Hm']; [lia|].
  set (q := ((b0 - 224) * 64 + (b1 - 128))%N) in *. set (c := (q * 64 + (b2 - 128))%N) in *.
  assert (2048 <= c ∧ c < 65536)%N by lia. split; [unfold scalar; lia|]. unfold utf8_char.
  destruct (N.ltb_spec c 128); [lia|]. destruct (N.ltb_spec c 2048); [lia|]. destruct (N.ltb_spec c 65536); [|lia].
  rewrite div4096, Hd, Hm, Hd', Hm'. f_equal; [lia|]. f_equal; [lia|]. f_equal. lia.
Qed.
Lemma utf8_char_4 b0 b1 b2 b3 : (240 <= b0 ∧ b0 <= 244)%N → (128 <= b1 ∧ b1 <= 191)%N → (128 <= b2 ∧ b2 <= 191)%N →
  (128 <= b3 ∧ b3 <= 191)%N → (b0 = 240 → 144 <= b1)%N → (b0 = 244 → b1 <= 143)%N →
  scalar ((((b0 - 240) * 64 + (b1 - 128)) * 64 + (b2 - 128)) * 64 + (b3 - 128)) ∧
  utf8_char ((((b0 - 240) * 64 + (b1 - 128)) * 64 + (b2 - 128)) * 64 + (b3 - 128)) = [b0; b1; b2; b3].
Proof.
  intros H0 H1 H2 H3 H4 H5. destruct (div64_of (((b0 - 240) * 64 + (b1 - 128)) * 64 + (b2 - 128)) (b3 - 128)) as [Hd Hm]; [lia|].
  destruct (div64_of ((b0 - 240) * 64 + (b1 - 128)) (b2 - 128)) as [Hd' Hm']; [lia|].
  destruct (div64_of (b0 - 240) (b1 - 128)) as [Hd2 Hm2]; [lia|].
  set (q := ((b0 - 240) * 64 + (b1 - 128))%N) in *. set (q' := (q * 64 + (b2 - 128))%N) in *. set (c := (q' * 64 + (b3 - 128))%N) in *.
  assert (65536 <= c ∧ c < 1114112)%N by lia. split; [unfold scalar; lia|]. unfold utf8_char.
  destruct (N.ltb_spec c 128); [lia|]. destruct (N.ltb_spec c 2048); [lia|]. destruct (N.ltb_spec c 65536); [lia|].
  rewrite div262144, div4096, Hd, Hm, Hd', Hm', Hd2, Hm2. f_equal; [lia|]. f_equal; [lia|]. f_equal; [lia|]. f_equal. lia.
Qed.
Lemma utf8_char_1 b : (b < 128)%N → scalar b ∧ utf8_char b = [b].
Proof. intros H. split; [unfold scalar; lia|]. unfold utf8_char. by rewrite (proj2 (N.ltb_lt b 128) H). Qed.
Lemma from_utf8_inv n : ∀ bs t, length bs ≤ n → from_utf8 bs = Some t → Forall scalar t ∧ bs = utf8 t.
Proof.
  induction n as [|n IH]; intros bs t Hlen.
  { destruct bs; [|cbn in Hlen; lia]. intros [= <-]. by split; [constructor|]. }
  assert (∀ ch c bs', bs = ch ++ bs' → ch ≠ [] → scalar c → utf8_char c = ch → cons c <$> from_utf8 bs' = Some t →
    Forall scalar t ∧ bs = utf8 t) as Hgo.
  { intros ch c bs' -> Hne Hc Hch Hf. destruct (from_utf8 bs') as [t'|] eqn:E; [|done]. injection Hf as <-.
    destruct (IH bs' t') as [H1 H2]; [|done|].
    - rewrite app_length in Hlen. destruct ch; [done|]. cbn in Hlen. lia.
    - split; [by constructor|]. by rewrite utf8_cons, Hch, H2. }
  destruct bs as [|b0 bs0]; cbn [from_utf8]; [intros [= <-]; by split; [constructor|]|].
  destruct (N.ltb_spec b0 128) as [H0|H0].
  { intros Hf. destruct (utf8_char_1 b0 H0) as [Hs Hch]. by apply (Hgo [b0] b0 bs0). }
  destruct bs0 as [|b1 bs1]; [done|].
  destruct (andb (194 <=? b0)%N (b0 <=? 223)%N) eqn:E1.
  { apply andb_true_iff in E1 as [E1 E1']. apply N.leb_le in E1, E1'. destruct (utf8_cont b1) eqn:Ec; [|done]. apply utf8_cont_spec in Ec.
    intros Hf. destruct (utf8_char_2 b0 b1) as [Hs Hch]; [lia|done|]. by eapply (Hgo [b0; b1] _ bs1). }
  destruct bs1 as [|b2 bs2]; [done|].
  destruct (andb (224 <=? b0)%N (b0 <=? 239)%N) eqn:E2.
  { apply andb_true_iff in E2 as [E2 E2']. apply N.leb_le in E2, E2'.
    match goal with |- (if ?b then _ else _) = _ → _ => destruct b eqn:Ec end; [|done].
    rewrite !andb_true_iff, !implb_spec, !utf8_cont_spec, !N.leb_le, !N.eqb_eq in Ec. destruct Ec as (((Ec1 & Ec2) & Ec3) & Ec4).
    intros Hf. destruct (utf8_char_3 b0 b1 b2) as [Hs Hch]; [lia|done|done|done|done|]. by eapply (Hgo [b0; b1; b2] _ bs2). }
  destruct bs2 as [|b3 bs3]; [done|].
  match goal with |- (if ?b then _ else _) = _ → _ => destruct b eqn:Ec end; [|done].
  rewrite !andb_true_iff, !implb_spec, !utf8_cont_spec, !N.leb_le, !N.eqb_eq in Ec. destruct Ec as (((((Ec0 & Ec1) & Ec2) & Ec3) & Ec4) & Ec5).
  intros Hf. destruct (utf8_char_4 b0 b1 b2 b3) as [Hs Hch]; [done|done|done|done|done|done|]. by eapply (Hgo [b0; b1; b2; b3] _ bs3).
Qed.
Lemma from_utf8_spec bs t : from_utf8 bs = Some t ↔ Forall scalar t ∧ bs = utf8 t.
Proof. split; [by apply (from_utf8_inv (length bs))|]. intros [H ->]. by apply from_utf8_utf8. Qed.
Lemma from_utf8_None bs : from_utf8 bs = None ↔ ¬ valid_utf8 bs.
Proof.
  unfold valid_utf8. split.
  - intros H (t & Ht). apply from_utf8_spec in Ht. congruence.
  - intros H. destruct (from_utf8 bs) as [t|] eqn:E; [|done]. destruct H. exists t. by apply from_utf8_spec.
Qed.
Lemma utf8_inj s t : Forall scalar s → Forall scalar t → utf8 s = utf8 t → s = t.
Proof. intros Hs Ht E. apply from_utf8_utf8 in Hs, Ht. rewrite E in Hs. congruence. Qed.
Lemma utf8_ascii t : Forall (λ c, c < 128)%N t → utf8 t = t ∧ Forall scalar t.
Proof.
  induction 1 as [|c t Hc Ht [IH1 IH2]]; [done|]. destruct (utf8_char_1 c Hc) as [Hs Hch]. rewrite utf8_cons, Hch, IH1. by split; [|constructor].
Qed.
(** The line feed occurs in an encoding only as itself. *)
Lemma utf8_char_lf c : 10%N ∈ utf8_char c ↔ c = 10%N.
Proof.
  unfold utf8_char. destruct (N.ltb_spec c 128) as [H|H]; [by rewrite elem_of_list_singleton|].
  destruct (N.ltb_spec c 2048); [|destruct (N.ltb_spec c 65536)]; rewrite !elem_of_cons, elem_of_nil;
    repeat match goal with |- context [(?a / ?b)%N] => generalize (a / b)%N; intros end;
    repeat match goal with |- context [(?a mod ?b)%N] => generalize (a mod b)%N; intros end; lia.
Qed.
Lemma utf8_lf t : 10%N ∈ utf8 t ↔ 10%N ∈ t.
Proof.
  induction t as [|c t IH]; [done|]. rewrite utf8_cons, elem_of_app, utf8_char_lf, IH, elem_of_cons. split; intros [?|?]; auto.
Qed.

(** ** Lines of bytes *)
Lemma utf8_last t c : Forall scalar t → ∀ l, utf8 t = l ++ [c] → (c < 128)%N → ∃ t', t = t' ++ [c] ∧ l = utf8 t'.
Proof.
  intros Ht l E Hc. destruct t as [|d t _] using rev_ind; [by destruct l|]. rewrite utf8_app in E.
  assert (utf8 [d] = utf8_char d) as Ed by (unfold utf8; cbn [fmap list_fmap concat]; by rewrite app_nil_r).
  rewrite Ed in E. assert (∃ s e, utf8_char d = s ++ [e] ∧ (128 <= e ∨ (s = [] ∧ e = d))%N) as (s & e & Es & He).
  { unfold utf8_char. destruct (N.ltb_spec d 128); [exists [], d; auto|].
    destruct (N.ltb_spec d 2048); [|destruct (N.ltb_spec d 65536)].
    - exists [192 + d / 64]%N, (128 + d mod 64)%N. split; [done|]. left. apply N.le_add_r.
    - exists [224 + d / 4096; 128 + d / 64 mod 64]%N, (128 + d mod 64)%N. split; [done|]. left. apply N.le_add_r.
    - exists [240 + d / 262144; 128 + d / 4096 mod 64; 128 + d / 64 mod 64]%N, (128 + d mod 64)%N. split; [done|]. left. apply N.le_add_r. }
  rewrite Es, app_assoc in E. apply app_inj_2 in E as [E1 [= ->]]; [|done]. destruct He as [?|[-> ->]]; [lia|].
  exists t. by rewrite app_nil_r in E1.
Qed.
Lemma utf8_snoc_ascii t c : (c < 128)%N → utf8 (t ++ [c]) = utf8 t ++ [c].
Proof. intros Hc. rewrite utf8_app. f_equal. unfold utf8. cbn [fmap list_fmap concat]. rewrite app_nil_r. by apply utf8_char_1. Qed.
Lemma strip_eol_lf t : strip_eol (t ++ [10%N]) = strip_cr t.
Proof. unfold strip_eol. rewrite last_snoc. cbn. rewrite app_length. cbn. by rewrite Nat.add_sub, take_app. Qed.
Lemma strip_eol_id t : 10%N ∉ t → strip_eol t = t.
Proof.
  intros Ht. unfold strip_eol. destruct (last t) as [c|] eqn:E; [|done]. destruct (N.eqb_spec c 10) as [->|]; [|done].
  apply last_Some in E as [t' ->]. set_solver.
Qed.

Definition rd_item (l : list N) : option (list N) := s ← from_utf8 (l ++ [10%N]); Some (strip_eol s).
Definition rd_tail (ok : bool) (tail : list N) : list (option (list N)) :=
  if ok then match tail with [] => [] | _ => [from_utf8 tail] end else [None].
Lemma rd_item_Some l t : 10%N ∉ l → rd_item l = Some t ↔ decoded l t.
Proof.
  intros Hlf. unfold rd_item. split.
  - intros H. destruct (from_utf8 (l ++ [10%N])) as [s|] eqn:E; [|done]. injection H as <-. apply from_utf8_spec in E as [Hs Es].
    symmetry in Es. apply utf8_last in Es as (t & -> & ->); [|done|done]. rewrite strip_eol_lf. apply Forall_app in Hs as [Hs _].
    assert ((∃ t', t = t' ++ [13%N]) ∨ ¬ ∃ t', t = t' ++ [13%N]) as [[t' ->]|Hn].
    { destruct t as [|c t _] using rev_ind; [right; intros [t' Ht']; by destruct t'|]. destruct (decide (c = 13%N)) as [->|Hc]; [left; by eexists|].
      right. intros [t' Ht']. apply app_inj_2 in Ht' as [_ [= ?]]; done. }
    + rewrite strip_cr_snoc. apply Forall_app in Hs as [Hs _]. split; [done|]. by right.
    + rewrite strip_cr_id by (intros t' ->; apply Hn; by eexists). split; [done|]. left. split; [done|]. intros t' ->. apply Hn. by eexists.
  - assert (scalar 10 ∧ scalar 13) as [H10 H13] by (unfold scalar; lia).
    intros [Ht [[-> Hcr]| ->]]; rewrite <- utf8_snoc_ascii by done; rewrite from_utf8_utf8 by (rewrite ?Forall_app; split_and?; auto);
      cbn; rewrite strip_eol_lf; [by rewrite strip_cr_id|by rewrite strip_cr_snoc].
Qed.
Lemma rd_item_None l : rd_item l = None ↔ ¬ valid_utf8 l.
Proof.
  unfold rd_item. destruct (from_utf8 (l ++ [10%N])) as [s|] eqn:E.
  - cbn. split; [done|]. intros H. destruct H. apply from_utf8_spec in E as [Hs Es].
    symmetry in Es. apply utf8_last in Es as (t & -> & ->); [|done|done]. exists t. apply Forall_app in Hs as [Hs _]. done.
  - cbn. split; [|done]. intros _ (t & Ht & ->). apply from_utf8_None in E. destruct E. exists (t ++ [10%N]).
    rewrite utf8_snoc_ascii by done. split; [|done]. apply Forall_app; split; [done|]. constructor; [unfold scalar; lia|done].
Qed.
Lemma rd_chunks_app ok l : 10%N ∉ l → ∀ buf t, rd_chunks ok buf (l ++ t) = rd_chunks ok (buf ++ l) t.
Proof.
  induction l as [|c l IH]; intros Hl buf t; [by rewrite app_nil_r|]. cbn [app rd_chunks].
  destruct (N.eqb_spec c 10) as [->|Hne]; [set_solver|]. rewrite IH by set_solver. by rewrite <- app_assoc.
Qed.
Lemma rd_lines_spec bs ok ls tail : byte_lines bs ls tail → rd_lines (Reader bs ok) = (rd_item <$> ls) ++ rd_tail ok tail.
Proof.
  intros (-> & Hls & Htail). unfold rd_lines. cbn [rd_bytes rd_ok]. induction Hls as [|l ls Hl Hls IH].
  - cbn [fmap list_fmap concat app]. rewrite <- (app_nil_r tail) at 1. rewrite rd_chunks_app by done. cbn [app rd_chunks].
    unfold rd_tail. destruct ok; [|done]. destruct tail as [|c tail]; [done|]. cbn [fmap list_fmap mbind option_bind].
    destruct (from_utf8 (c :: tail)) as [s|] eqn:E; [|done]. cbn. rewrite strip_eol_id; [done|].
    apply from_utf8_spec in E as [_ E]. rewrite E in Htail. by rewrite utf8_lf in Htail.
  - cbn [fmap list_fmap concat]. rewrite <- !app_assoc, rd_chunks_app by done. cbn [app rd_chunks].
    rewrite N.eqb_refl. cbn [fmap list_fmap]. f_equal. exact IH.
Qed.
Lemma byte_lines_exists bs : ∃ ls tail, byte_lines bs ls tail.
Proof.
  induction bs as [|c bs (ls & tail & -> & Hls & Htail)].
  - exists [], []. split; [done|]. split; [done|]. set_solver.
  - destruct (decide (c = 10%N)) as [->|Hc].
    + exists ([] :: ls), tail. split; [done|]. split; [|done]. constructor; [set_solver|done].
    + destruct ls as [|l ls].
      * exists [], (c :: tail). split; [done|]. split; [done|]. set_solver.
      * apply Forall_cons in Hls as [Hl Hls]. exists ((c :: l) :: ls), tail. split; [done|]. split; [|done]. constructor; [set_solver|done].
Qed.
(** The first unreadable line. *)
Lemma unreadable_after_lookup good bs ok : unreadable_after good bs ok ↔
  ∃ i, rd_lines (Reader bs ok) !! i = Some None ∧ ∀ j, j < i → ∃ t, rd_lines (Reader bs ok) !! j = Some (Some t) ∧ good t.
Proof.
  split.
  - intros (ls & tail & i & Hb & Hgood & Hbad). rewrite (rd_lines_spec bs ok ls tail Hb).
    destruct Hb as (_ & Hls & _). rewrite Forall_lookup in Hls.
    assert (i ≤ length ls) as Hi. { destruct Hbad as [(l & Hl & _)|[-> _]]; [|done]. apply lookup_lt_Some in Hl. lia. }
    exists i. split.
    + destruct Hbad as [(l & Hl & Hv)|[-> Hv]].
      * rewrite lookup_app_l by (rewrite fmap_length; by eapply lookup_lt_Some). rewrite list_lookup_fmap, Hl. cbn. f_equal. by apply rd_item_None.
      * rewrite lookup_app_r by (by rewrite fmap_length). rewrite fmap_length, Nat.sub_diag. unfold rd_tail. destruct Hv as [->|Hv]; [done|].
        destruct ok; [|done]. destruct tail as [|c tail]; [|cbn [lookup list_lookup]; f_equal; by apply from_utf8_None]. destruct Hv. by exists [].
    + intros j Hj. destruct (lookup_lt_is_Some_2 ls j) as [l Hl]; [lia|]. destruct (Hgood j l Hj Hl) as (t & Ht & Hg). exists t. split; [|done].
      rewrite lookup_app_l by (rewrite fmap_length; lia). rewrite list_lookup_fmap, Hl. cbn. f_equal. apply rd_item_Some; [by eapply Hls|done].
  - intros (i & Hi & Hgood). destruct (byte_lines_exists bs) as (ls & tail & Hb). pose proof Hb as (_ & Hls & _). rewrite Forall_lookup in Hls.
    rewrite (rd_lines_spec bs ok ls tail Hb) in Hi, Hgood. exists ls, tail, i.
    assert (i ≤ length ls) as Hle.
    { apply lookup_lt_Some in Hi. rewrite app_length, fmap_length in Hi. assert (length (rd_tail ok tail) ≤ 1); [|lia].
      unfold rd_tail. destruct ok; [destruct tail|]; cbn; lia. }
    split; [done|]. split.
    + intros j l Hj Hl. destruct (Hgood j Hj) as (t & Ht & Hg). exists t. split; [|done].
      rewrite lookup_app_l, list_lookup_fmap, Hl in Ht by (rewrite fmap_length; lia). injection Ht as Ht. apply rd_item_Some in Ht; [done|]. by eapply Hls.
    + destruct (decide (i < length ls)) as [Hlt|Hge].
      * left. destruct (lookup_lt_is_Some_2 ls i Hlt) as [l Hl]. exists l. split; [done|].
        rewrite lookup_app_l, list_lookup_fmap, Hl in Hi by (by rewrite fmap_length). injection Hi as Hi. by apply rd_item_None.
      * right. assert (i = length ls) as -> by lia. split; [done|]. rewrite lookup_app_r, fmap_length, Nat.sub_diag in Hi by (by rewrite fmap_length).
        unfold rd_tail in Hi. destruct ok; [|by left]. right. destruct tail as [|c tail]; [done|]. injection Hi as Hi. by apply from_utf8_None.
Qed.
(** On the encoding of a text the lines are those of the text. *)
Lemma rd_chunks_utf8 t : Forall scalar t → ∀ buf, Forall scalar buf → 10%N ∉ buf →
  ((λ p, b ← p; s ← from_utf8 b; Some (strip_eol s)) <$> rd_chunks true (utf8 buf) (utf8 t) : list (option (list N))) = Some <$> lines_from buf t.
Proof.
  induction 1 as [|c t Hc Ht IH]; intros buf Hb Hlf.
  - cbn [utf8 fmap list_fmap concat rd_chunks lines_from]. destruct buf as [|c buf]; [done|].
    assert (utf8 (c :: buf) ≠ []) as Hne.
    { rewrite utf8_cons. unfold utf8_char. repeat case_match; done. }
    destruct (utf8 (c :: buf)) as [|b bs] eqn:E; [done|]. rewrite <- E. cbn [fmap list_fmap mbind option_bind].
    rewrite from_utf8_utf8 by done. cbn [mbind option_bind]. by rewrite strip_eol_id.
  - rewrite utf8_cons. cbn [lines_from]. destruct (N.eqb_spec c 10) as [->|Hne].
    + destruct (utf8_char_1 10) as [_ ->]; [done|]. cbn [app rd_chunks]. rewrite N.eqb_refl. cbn [fmap list_fmap]. f_equal.
      * cbn [mbind option_bind]. rewrite <- utf8_snoc_ascii by done. rewrite from_utf8_utf8 by (apply Forall_app; split; [done|by constructor]).
        cbn [mbind option_bind]. by rewrite strip_eol_lf.
      * apply (IH []); [done|]. set_solver.
    + rewrite rd_chunks_app by (by rewrite utf8_char_lf). replace (utf8 buf ++ utf8_char c) with (utf8 (buf ++ [c])).
      2:{ rewrite utf8_app. f_equal. unfold utf8. cbn [fmap list_fmap concat]. by rewrite app_nil_r. }
      apply IH; [apply Forall_app; split; [done|by constructor]|]. set_solver.
Qed.
Lemma rd_lines_utf8 t : Forall scalar t → rd_lines (Reader (utf8 t) true) = Some <$> io_lines t.
Proof. intros Ht. apply (rd_chunks_utf8 t Ht []); [done|]. set_solver. Qed.

(** ** The loops with [line.unwrap()] *)
Lemma option_prefix {A} (ls : list (option A)) : ∃ ts rest, ls = (Some <$> ts) ++ rest ∧ (rest = [] ∨ ∃ x, rest = None :: x).
Proof.
  induction ls as [|[t|] ls (ts & rest & -> & H)]; [by exists [], []; auto| |].
  - exists (t :: ts), rest. auto.
  - exists [], (None :: (Some <$> ts) ++ rest). split; [done|]. right. by eexists.
Qed.
Lemma eg_read_prefix ts rest : (rest = [] ∨ ∃ x, rest = None :: x) → ∀ i g,
  eg_read i g ((Some <$> ts) ++ rest) = match eg_load_lines i g ts with
    | Ok (IoOk h) => match rest with [] => Ok (IoOk h) | _ => Panic end | x => x end.
Proof.
  intros Hrest. induction ts as [|t ts IH]; intros i g.
  - destruct Hrest as [->|[x ->]]; done.
  - cbn [fmap list_fmap app eg_read eg_load_lines unwrap mbind res_bind].
    destruct (split_whitespace t) as [|a [|b [|? ?]]]; try done.
    destruct (parse_vertex a i); [|done]. destruct (parse_vertex b i); [|done].
    destruct (eg_add_edge g _ _) as [r| |]; cbn [mbind res_bind]; [apply IH|done|done].
Qed.
Lemma vec_read_prefix ts rest : (rest = [] ∨ ∃ x, rest = None :: x) → ∀ i s,
  vec_read i s ((Some <$> ts) ++ rest) = match vec_load_lines i s ts with
    | IoOk h => match rest with [] => Ok (IoOk h) | _ => Panic end | IoErr e => Ok (IoErr e) end.
Proof.
  intros Hrest. induction ts as [|t ts IH]; intros i s.
  - destruct Hrest as [->|[x ->]]; done.
  - cbn [fmap list_fmap app vec_read vec_load_lines unwrap mbind res_bind]. by destruct (parse_vertex _ i).
Qed.
Lemma vset_read_prefix ts rest : (rest = [] ∨ ∃ x, rest = None :: x) → ∀ i s,
  vset_read i s ((Some <$> ts) ++ rest) = match vset_load_lines i s ts with
    | IoOk h => match rest with [] => Ok (IoOk h) | _ => Panic end | IoErr e => Ok (IoErr e) end.
Proof.
  intros Hrest. induction ts as [|t ts IH]; intros i s.
  - destruct Hrest as [->|[x ->]]; done.
  - cbn [fmap list_fmap app vset_read vset_load_lines unwrap mbind res_bind]. by destruct (parse_vertex _ i).
Qed.
Lemma prefix_unreadable good bs ok ts rest : rd_lines (Reader bs ok) = (Some <$> ts) ++ rest → (rest = [] ∨ ∃ x, rest = None :: x) →
  unreadable_after good bs ok ↔ rest ≠ [] ∧ Forall good ts.
Proof.
  intros E Hrest. rewrite unreadable_after_lookup, E. split.
  - intros (i & Hi & Hgood). assert (i = length ts) as ->.
    { destruct (Nat.lt_trichotomy i (length ts)) as [Hlt|[?|Hgt]]; [|done|].
      - rewrite lookup_app_l, list_lookup_fmap in Hi by (by rewrite fmap_length). by destruct (ts !! i).
      - destruct (Hgood (length ts) Hgt) as (t & Ht & _). rewrite lookup_app_r, fmap_length, Nat.sub_diag in Ht by (by rewrite fmap_length).
        destruct Hrest as [->|[x ->]]; done. }
    split; [intros ->; by rewrite app_nil_r, list_lookup_fmap, lookup_ge_None_2 in Hi|].
    apply Forall_lookup. intros j t Ht. assert (j < length ts) as Hj by (by eapply lookup_lt_Some). destruct (Hgood j Hj) as (t' & Ht' & Hg).
    rewrite lookup_app_l, list_lookup_fmap, Ht in Ht' by (by rewrite fmap_length). by injection Ht' as <-.
  - intros [Hne Hg]. exists (length ts). destruct Hrest as [->|[x ->]]; [done|]. split.
    + by rewrite lookup_app_r, fmap_length, Nat.sub_diag by (by rewrite fmap_length).
    + intros j Hj. destruct (lookup_lt_is_Some_2 ts j Hj) as [t Ht]. exists t. rewrite lookup_app_l, list_lookup_fmap, Ht by (by rewrite fmap_length).
      split; [done|]. by eapply Forall_lookup_1.
Qed.

(** ** File names *)
Lemma split_slash_app l : 47%N ∉ l → ∀ buf t, split_slash buf (l ++ t) = split_slash (buf ++ l) t.
Proof.
  induction l as [|c l IH]; intros Hl buf t; [by rewrite app_nil_r|]. cbn [app split_slash].
  destruct (N.eqb_spec c 47) as [->|Hne]; [set_solver|]. rewrite IH by set_solver. by rewrite <- app_assoc.
Qed.
Lemma split_slash_sep d t : ∀ buf, split_slash buf (d ++ 47%N :: t) = split_slash buf d ++ split_slash [] t.
Proof.
  induction d as [|c d IH]; intros buf; cbn [app split_slash]; [done|]. destruct (c =? 47)%N; [|apply IH]. cbn [app]. by rewrite IH.
Qed.
Lemma split_slash_inv name : ∃ l0 ps, name = l0 ++ concat (cons 47%N <$> ps) ∧ 47%N ∉ l0 ∧ Forall (λ p, 47%N ∉ p) ps ∧ split_slash [] name = l0 :: ps.
Proof.
  assert (∀ l, 47%N ∉ l → split_slash [] l = [l]) as Hone.
  { intros l Hl. rewrite <- (app_nil_r l) at 1. by rewrite split_slash_app. }
  induction name as [|c name (l0 & ps & E & Hl0 & Hps & Hs)].
  - exists [], []. split_and!; [done|set_solver|done|done].
  - destruct (decide (c = 47%N)) as [->|Hc].
    + exists [], (l0 :: ps). split_and!; [by rewrite E|set_solver|by constructor|]. cbn [split_slash]. by rewrite Hs.
    + exists (c :: l0), ps. split_and!; [by rewrite E|set_solver|done|].
      change (c :: name) with ([c] ++ name). rewrite split_slash_app by set_solver. rewrite E in Hs |- *.
      rewrite split_slash_app in Hs |- * by done. cbn [app] in *. destruct ps as [|p ps]; [done|].
      cbn [fmap list_fmap concat app split_slash] in *. injection Hs as Hs. by rewrite Hs.
Qed.
Lemma last_filter {A} (P : A → Prop) `{!∀ x, Decision (P x)} l x : last (filter P l) = Some x ↔
  ∃ l1 l2, l = l1 ++ x :: l2 ∧ P x ∧ Forall (λ y, ¬ P y) l2.
Proof.
  split.
  - induction l as [|y l IH] using rev_ind; [done|]. rewrite filter_app. destruct (decide (P y)) as [Hy|Hy].
    + rewrite filter_cons_True by done. cbn [filter list_filter]. rewrite last_snoc. intros [= <-]. by exists l, [].
    + rewrite filter_cons_False by done. cbn [filter list_filter]. rewrite app_nil_r. intros (l1 & l2 & -> & Hx & H2)%IH.
      exists l1, (l2 ++ [y]). split_and!; [by rewrite <- app_assoc|done|]. apply Forall_app; split; [done|by constructor].
  - intros (l1 & l2 & -> & Hx & H2). rewrite filter_app, filter_cons_True by done.
    assert (filter P l2 = []) as ->. { clear -H2. induction H2 as [|y l2 Hy H2 IH]; [done|]. by rewrite filter_cons_False. }
    by rewrite last_snoc.
Qed.
Lemma rsplit_dot_spec f b a : rsplit_dot f = Some (b, a) ↔ f = b ++ [46%N] ++ a ∧ 46%N ∉ a.
Proof.
  assert (∀ a, 46%N ∉ a → rsplit_dot a = None) as Hn.
  { intros a'. induction a' as [|c a' IH]; intros Ha; [done|]. cbn [rsplit_dot]. rewrite IH by set_solver.
    destruct (N.eqb_spec c 46) as [->|]; [set_solver|done]. }
  split.
  - revert b. induction f as [|c f IH]; intros b; cbn [rsplit_dot]; [done|]. destruct (rsplit_dot f) as [[b' a']|] eqn:E.
    + intros [= <- ->]. destruct (IH b') as [-> Ha]; [done|]. done.
    + destruct (N.eqb_spec c 46) as [->|]; [|done]. intros [= <- <-]. split; [done|]. clear IH. intros Hin.
      apply elem_of_list_split in Hin as (x & y & ->). clear -E. induction x as [|d x IH]; cbn [app rsplit_dot] in E.
      * destruct (rsplit_dot y) as [[]|]; done.
      * destruct (rsplit_dot (x ++ 46%N :: y)) as [[]|]; [done|]. by apply IH.
  - intros [-> Ha]. induction b as [|c b IH]; cbn [app rsplit_dot]; [by rewrite Hn|]. cbn [app] in IH. by rewrite IH.
Qed.
Lemma extension_spec name e : extension name = Some e ↔ has_extension name e.
Proof.
  unfold extension, file_name, has_extension. split.
  - destruct (split_slash_inv name) as (l0 & ps & E & Hl0 & Hps & Hs). rewrite Hs.
    destruct (last _) as [f|] eqn:El; cbn [mbind option_bind]; [|done]. apply last_filter in El as (l1 & l2 & Eall & [Hf1 Hf2] & H2).
    destruct (bool_decide_reflect (f = [46; 46]%N)) as [|Hf3]; cbn [mbind option_bind]; [done|].
    destruct (rsplit_dot f) as [[[|c b] a]|] eqn:Er; [done| |done]. intros [= <-]. apply rsplit_dot_spec in Er as [Ef Ha].
    assert (47%N ∉ f) as Hslash.
    { destruct l1 as [|? l1]; injection Eall as <- ->; [done|]. apply Forall_app in Hps as [_ Hps]. by apply Forall_cons in Hps as [Hps _]. }
    assert (∃ dir, name = dir ++ f ++ concat (cons 47%N <$> l2) ∧ (dir = [] ∨ ∃ d, dir = d ++ [47%N])) as (dir & En & Hdir).
    { rewrite E. destruct l1 as [|? l1]; injection Eall as <- ->.
      - exists []. split; [done|by left].
      - exists (l0 ++ concat (cons 47%N <$> l1) ++ [47%N]). split; [|right; exists (l0 ++ concat (cons 47%N <$> l1)); by rewrite app_assoc].
        rewrite fmap_app, concat_app. cbn [fmap list_fmap concat]. by rewrite <- !app_assoc. }
    exists dir, (c :: b), (cons 47%N <$> l2). split_and!; [|done|done| | |done| |].
    + rewrite En, Ef. by rewrite <- !app_assoc.
    + rewrite Ef in Hslash. set_solver.
    + rewrite Ef in Hslash. set_solver.
    + intros [Hb ->]. apply Hf3. rewrite Ef, Hb. done.
    + apply Forall_fmap. eapply Forall_impl; [exact H2|]. intros p Hp. cbn. destruct (decide (p = [])) as [->|Hp1]; [by left|].
      destruct (decide (p = [46%N])) as [->|Hp2]; [by right|]. by destruct Hp.
  - intros (dir & stem & tail & -> & Hdir & Hst & Hs1 & Hs2 & Hd & Hdd & Htail).
    set (f := stem ++ [46%N] ++ e). assert (47%N ∉ f) as Hf by (unfold f; set_solver).
    assert (∃ post, split_slash f (concat tail) = f :: post ∧ Forall (λ p, ¬ (p ≠ [] ∧ p ≠ [46%N])) post) as (post & Hpost & Hnot).
    { clear -Htail. generalize f. induction Htail as [|p tail Hp Htail IH]; intros f'; [by exists []|].
      destruct Hp as [->| ->]; cbn [concat app split_slash].
      - rewrite N.eqb_refl. destruct (IH []) as (post & -> & Hpost). exists ([] :: post). split; [done|]. constructor; [tauto|done].
      - rewrite N.eqb_refl. destruct (N.eqb_spec 46 47) as [|_]; [done|]. cbn [app].
        destruct (IH [46%N]) as (post & -> & Hpost). exists ([46%N] :: post). split; [done|]. constructor; [tauto|done]. }
    assert (∃ pre, split_slash [] (dir ++ stem ++ [46%N] ++ e ++ concat tail) = pre ++ f :: post) as [pre ->].
    { replace (stem ++ [46%N] ++ e ++ concat tail) with (f ++ concat tail) by (unfold f; by rewrite <- !app_assoc).
      destruct Hdir as [->|[d ->]].
      - exists []. cbn [app]. by rewrite split_slash_app.
      - exists (split_slash [] d). rewrite <- app_assoc. cbn [app]. rewrite split_slash_sep. f_equal. by rewrite split_slash_app. }
    rewrite (proj2 (last_filter _ (pre ++ f :: post) f)).
    + cbn [mbind option_bind]. destruct (bool_decide_reflect (f = [46; 46]%N)) as [Ef|_].
      * exfalso. unfold f in Ef. destruct stem as [|a [|b stem]]; [done| |].
        -- cbn [app] in Ef. injection Ef as -> ->. by apply Hdd.
        -- cbn [app] in Ef. injection Ef as -> -> Ef. by destruct stem.
      * cbn [mbind option_bind]. rewrite (proj2 (rsplit_dot_spec f stem e)) by done. by destruct stem.
    + exists pre, post. split_and!; [done| | |done].
      * unfold f. by destruct stem.
      * unfold f. destruct stem as [|? [|]]; done.
Qed.
