(** Lemmas about writing to devices that may refuse bytes. *)
From Verif Require Import Base M_Graph M_Iterators M_IO M_Write.

(** ** The device *)
Section device.
Context (ans : nat → nat → option nat).

Lemma dev_put_spec bs : ∀ d k d' rest ok, dev_put ans d k bs = (d', rest, ok) →
  dv_data d' ++ rest = dv_data d ++ bs ∧ (ok = true → rest = []) ∧ dv_calls d ≤ dv_calls d' ∧ (ok = false → ∃ n m, ans n m = None).
Proof.
  induction bs as [|b bs IH]; intros d k d' rest ok; cbn [dev_put].
  - intros [= <- <- <-]. done.
  - destruct k as [|k].
    + destruct (ans _ _) as [k|] eqn:Ea.
      * intros (H1 & H2 & H3 & H4)%IH. cbn [dv_data dv_calls] in *. rewrite H1, <- app_assoc. split_and!; [done|done|lia|done].
      * intros [= <- <- <-]. cbn. split_and!; [done|done|lia|eauto].
    + intros (H1 & H2 & H3 & H4)%IH. cbn [dv_data dv_calls] in *. rewrite H1, <- app_assoc. done.
Qed.
Lemma dev_put_fail bs : ∀ d k d' rest, dev_put ans d k bs = (d', rest, false) → rest ≠ [].
Proof.
  induction bs as [|b bs IH]; intros d k d' rest; cbn [dev_put]; [done|].
  destruct k as [|k]; [destruct (ans _ _)|]; [apply IH|by intros [= <- <-]|apply IH].
Qed.
Lemma dev_put_grow bs : ∀ d k, dv_data d `prefix_of` dv_data (dev_put ans d k bs).1.1.
Proof.
  induction bs as [|b bs IH]; intros d k; cbn [dev_put]; [done|]. destruct k as [|k]; [destruct (ans _ _)|]; [|done|];
    (etrans; [|apply IH]); cbn; by eexists.
Qed.
Lemma dev_put_nil d k : dev_put ans d k [] = (d, [], true).
Proof. done. Qed.
End device.

(** A device that stops after [K] calls behaves the same until then. *)
Definition stop_after (ans : nat → nat → option nat) (K : nat) : nat → nat → option nat := λ n m, if n <? K then ans n m else None.
Lemma dev_put_stop ans K bs : ∀ d k, dv_calls (dev_put ans d k bs).1.1 ≤ K → dev_put (stop_after ans K) d k bs = dev_put ans d k bs.
Proof.
  induction bs as [|b bs IH]; intros d k; cbn [dev_put]; [done|]. destruct k as [|k]; [|apply IH].
  unfold stop_after at 1. destruct (ans (dv_calls d) _) as [k|] eqn:Ea; intros HK.
  - assert (dv_calls d < K) as Hlt.
    { destruct (dev_put ans (Device (S (dv_calls d)) (dv_data d ++ [b])) k bs) as [[d' rest] ok] eqn:E.
      destruct (dev_put_spec _ _ _ _ _ _ _ E) as (_ & _ & Hm & _). cbn [fst dv_calls] in *. lia. }
    replace (dv_calls d <? K) with true by (symmetry; by apply Nat.ltb_lt). by apply IH.
  - by destruct (dv_calls d <? K).
Qed.
Lemma dev_put_stopped ans K d bs : bs ≠ [] → K ≤ dv_calls d → dv_data (dev_put (stop_after ans K) d 0 bs).1.1 = dv_data d.
Proof.
  intros Hne HK. destruct bs as [|b bs]; [done|]. cbn [dev_put]. unfold stop_after.
  replace (dv_calls d <? K) with false by (symmetry; by apply Nat.ltb_ge). done.
Qed.

(** ** The buffered writer *)
Section bufwriter.
Context {W : Type} (put : W → list N → W * list N * bool) (flush : W → W * bool) (fin : W → W) (cap : nat).
(** [I w t]: the writer [w] has accepted exactly the bytes [t]. *)
Context (I : W → list N → Prop).
Context (Hput : ∀ w t bs w' rest ok, I w t → put w bs = (w', rest, ok) → ∃ t', bs = t' ++ rest ∧ I w' (t ++ t') ∧ (ok = true → rest = [])).
Context (Hnil : ∀ w, put w [] = (w, [], true)).

(** [t] was written to the buffered writer. *)
Definition bw_inv (b : bufw W) (t : list N) : Prop := ∃ t0, I (bw_inner b) t0 ∧ t = t0 ++ bw_buf b.

Lemma bw_flush_buf_spec b t b' ok : bw_inv b t → bw_flush_buf put b = (b', ok) → bw_inv b' t ∧ (ok = true → bw_buf b' = [] ∧ I (bw_inner b') t).
Proof.
  intros (t0 & HI & ->). unfold bw_flush_buf. destruct (put (bw_inner b) (bw_buf b)) as [[w rest] ok'] eqn:E. intros [= <- <-].
  destruct (Hput _ _ _ _ _ _ HI E) as (t' & Hb & HI' & Hr). split.
  - exists (t0 ++ t'). split; [done|]. cbn. by rewrite Hb, app_assoc.
  - intros Hok. cbn. specialize (Hr Hok). subst rest. split; [done|]. by rewrite Hb, app_nil_r.
Qed.
Lemma bw_write_all_spec b t bs b' ok : bw_inv b t → bw_write_all put cap b bs = (b', ok) →
  (ok = true ∧ bw_inv b' (t ++ bs)) ∨ (ok = false ∧ ∃ t', bw_inv b' t' ∧ t' `prefix_of` t ++ bs).
Proof.
  intros Hb. unfold bw_write_all.
  assert (bw_inv (BufW (bw_buf b ++ bs) (bw_inner b)) (t ++ bs)) as Happ.
  { destruct Hb as (t0 & HI & ->). exists t0. split; [done|]. cbn. by rewrite app_assoc. }
  destruct (Nat.ltb_spec (length bs) (cap - length (bw_buf b))) as [H1|H1]; [intros [= <- <-]; by left|].
  assert (∀ b2, bw_inv b2 t → bw_buf b2 = [] ∨ bs = [] →
    (let '(w, _, ok) := put (bw_inner b2) bs in (BufW (bw_buf b2) w, ok)) = (b', ok) →
    (ok = true ∧ bw_inv b' (t ++ bs)) ∨ (ok = false ∧ ∃ t', bw_inv b' t' ∧ t' `prefix_of` t ++ bs)) as Hdirect.
  { intros b2 (t0 & HI & ->) Hempty. destruct (put (bw_inner b2) bs) as [[w rest] ok'] eqn:E. intros [= <- <-].
    destruct (Hput _ _ _ _ _ _ HI E) as (t' & Hbs & HI' & Hr). destruct Hempty as [He|He].
    - rewrite He, app_nil_r. destruct ok'; [left|right]; (split; [done|]).
      + rewrite (Hr eq_refl), app_nil_r in Hbs. subst t'. exists (t0 ++ bs). split; [done|]. by rewrite app_nil_r.
      + exists (t0 ++ t'). split; [exists (t0 ++ t'); split; [done|by rewrite app_nil_r]|]. exists rest. by rewrite Hbs, app_assoc.
    - rewrite He in *. rewrite Hnil in E. injection E as <- <- <-. left. split; [done|]. exists t0. split; [done|]. by rewrite app_nil_r. }
  destruct (Nat.ltb_spec (cap - length (bw_buf b)) (length bs)) as [H2|H2].
  - destruct (bw_flush_buf put b) as [b2 ok2] eqn:E2. destruct (bw_flush_buf_spec _ _ _ _ Hb E2) as [Hb2 Hok2]. destruct ok2.
    + destruct (Hok2 eq_refl) as [He _]. destruct (cap <=? length bs); [apply Hdirect; auto|]. intros [= <- <-]. left. split; [done|].
      destruct Hb2 as (t0 & HI & ->). exists t0. split; [done|]. cbn. by rewrite app_assoc.
    + intros [= <- <-]. right. split; [done|]. exists t. split; [done|]. by exists bs.
  - destruct (Nat.leb_spec cap (length bs)) as [H3|H3]; [|intros [= <- <-]; by left]. apply Hdirect; [done|].
    destruct (bw_buf b) as [|x l]; [by left|]. destruct bs as [|y l']; [by right|]. cbn [length] in *. lia.
Qed.
Lemma write_pieces_spec ps : ∀ b t b' ok, bw_inv b t → write_pieces put cap b ps = (b', ok) →
  (ok = true ∧ bw_inv b' (t ++ concat ps)) ∨ (ok = false ∧ ∃ t', bw_inv b' t' ∧ t' `prefix_of` t ++ concat ps).
Proof.
  induction ps as [|p ps IH]; intros b t b' ok Hb; cbn [write_pieces concat].
  - intros [= <- <-]. left. by rewrite app_nil_r.
  - destruct (bw_write_all put cap b p) as [b2 ok2] eqn:E2. destruct (bw_write_all_spec _ _ _ _ _ Hb E2) as [[-> Hb2]|[-> (t' & Hb2 & Hp)]].
    + rewrite (app_assoc t p). apply IH. done.
    + intros [= <- <-]. right. split; [done|]. exists t'. split; [done|]. rewrite app_assoc. by apply prefix_app_r.
Qed.
Lemma write_buf_spec w ps w' ok : I w [] → write_buf put flush fin cap w ps = (w', ok) →
  (ok = true ∧ ∃ w1 w2, I w1 (concat ps) ∧ flush w1 = (w2, true) ∧ w' = fin w2) ∨
  (ok = false ∧ ∃ w1 t, I w1 t ∧ t `prefix_of` concat ps ∧ (w' = fin w1 ∨ ∃ w2, flush w1 = (w2, false) ∧ w' = fin w2)).
Proof.
  intros HI. assert (bw_inv (BufW [] w) []) as Hb0 by (exists []; done). unfold write_buf.
  destruct (write_pieces put cap (BufW [] w) ps) as [b ok1] eqn:E1.
  assert (∀ b t w', bw_inv b t → bw_drop put fin b = w' → t `prefix_of` concat ps →
    ∃ w1 t, I w1 t ∧ t `prefix_of` concat ps ∧ (w' = fin w1 ∨ ∃ w2, flush w1 = (w2, false) ∧ w' = fin w2)) as Hdrop.
  { intros b2 t w2 (t0 & HI2 & ->) <- Hp. unfold bw_drop, bw_flush_buf.
    destruct (put (bw_inner b2) (bw_buf b2)) as [[w3 rest] ok3] eqn:E. destruct (Hput _ _ _ _ _ _ HI2 E) as (t' & Hb & HI3 & _).
    cbn [fst bw_inner]. exists w3, (t0 ++ t'). split; [done|]. split; [|by left]. rewrite Hb, app_assoc in Hp. by eapply prefix_app_l. }
  destruct (write_pieces_spec ps _ _ _ _ Hb0 E1) as [[-> Hb]|[-> (t' & Hb & Hp)]].
  - cbn [app] in Hb. unfold bw_flush. destruct (bw_flush_buf put b) as [b2 ok2] eqn:E2. destruct (bw_flush_buf_spec _ _ _ _ Hb E2) as [Hb2 Hok2].
    destruct ok2.
    + destruct (Hok2 eq_refl) as [He HI2]. destruct (flush (bw_inner b2)) as [w2 ok3] eqn:E3. rewrite He. unfold bw_drop, bw_flush_buf. cbn [bw_inner bw_buf].
      rewrite Hnil. cbn [fst bw_inner]. intros [= <- <-]. destruct ok3; [left; split; [done|eauto]|]. right. split; [done|]. exists (bw_inner b2), (concat ps). split; [exact HI2|]. split; [done|]. right. eauto.
    + intros [= <- <-]. right. split; [done|]. eapply Hdrop; [exact Hb2|done|done].
  - intros [= <- <-]. right. split; [done|]. eapply Hdrop; [exact Hb|done|done].
Qed.
End bufwriter.

(** If the writer below never fails, nothing does. *)
Section no_error.
Context {W : Type} (put : W → list N → W * list N * bool) (flush : W → W * bool) (fin : W → W) (cap : nat).
Context (Hput : ∀ w bs, (put w bs).2 = true) (Hflush : ∀ w, (flush w).2 = true).
Lemma bw_write_all_ok b bs : (bw_write_all put cap b bs).2 = true.
Proof.
  unfold bw_write_all, bw_flush_buf. pose proof (Hput (bw_inner b) (bw_buf b)) as H1. destruct (put (bw_inner b) (bw_buf b)) as [[w rest] ok]. cbn in H1. subst ok.
  assert (∀ b2 : bufw W, (let '(w, _, ok) := put (bw_inner b2) bs in (BufW (bw_buf b2) w, ok)).2 = true) as H2.
  { intros b2. pose proof (Hput (bw_inner b2) bs) as H2. by destruct (put (bw_inner b2) bs) as [[w2 rest2] ok2]. }
  destruct (_ <? _); [done|]. destruct (_ <? _); destruct (_ <=? _); [apply H2|done|apply H2|done].
Qed.
Lemma write_pieces_ok ps : ∀ b, (write_pieces put cap b ps).2 = true.
Proof.
  induction ps as [|p ps IH]; intros b; cbn [write_pieces]; [done|]. pose proof (bw_write_all_ok b p) as H1.
  destruct (bw_write_all put cap b p) as [b2 ok2]. cbn in H1. subst ok2. apply IH.
Qed.
Lemma write_buf_ok w ps : (write_buf put flush fin cap w ps).2 = true.
Proof.
  unfold write_buf. pose proof (write_pieces_ok ps (BufW [] w)) as H1. destruct (write_pieces put cap (BufW [] w) ps) as [b ok]. cbn in H1. subst ok.
  unfold bw_flush, bw_flush_buf. pose proof (Hput (bw_inner b) (bw_buf b)) as H2. destruct (put (bw_inner b) (bw_buf b)) as [[w2 rest] ok]. cbn in H2. subst ok.
  cbn [bw_inner bw_buf]. pose proof (Hflush w2) as H3. by destruct (flush w2) as [w3 ok3].
Qed.
End no_error.

(** Two writers that agree while a counter stays below a limit. *)
Section agree.
Context {W : Type} (put put' : W → list N → W * list N * bool) (flush flush' : W → W * bool) (calls : W → nat) (cap K : nat).
Context (Hmono : ∀ w bs, calls w ≤ calls (put w bs).1.1) (Hfmono : ∀ w, calls w ≤ calls (flush w).1).
Context (Hagree : ∀ w bs, calls (put w bs).1.1 ≤ K → put' w bs = put w bs) (Hfagree : ∀ w, calls (flush w).1 ≤ K → flush' w = flush w).
Notation bcalls b := (calls (bw_inner b)).

Lemma flush_buf_agree b : bcalls b ≤ bcalls (bw_flush_buf put b).1 ∧ (bcalls (bw_flush_buf put b).1 ≤ K → bw_flush_buf put' b = bw_flush_buf put b).
Proof.
  unfold bw_flush_buf. pose proof (Hmono (bw_inner b) (bw_buf b)) as H1. pose proof (Hagree (bw_inner b) (bw_buf b)) as H2.
  destruct (put (bw_inner b) (bw_buf b)) as [[w rest] ok]. cbn in *. split; [done|]. intros HK. by rewrite H2.
Qed.
Lemma direct_agree (b : bufw W) bs :
  bcalls b ≤ bcalls (let '(w, _, ok) := put (bw_inner b) bs in (BufW (bw_buf b) w, ok)).1 ∧
  (bcalls (let '(w, _, ok) := put (bw_inner b) bs in (BufW (bw_buf b) w, ok)).1 ≤ K →
   (let '(w, _, ok) := put' (bw_inner b) bs in (BufW (bw_buf b) w, ok)) = (let '(w, _, ok) := put (bw_inner b) bs in (BufW (bw_buf b) w, ok))).
Proof.
  pose proof (Hmono (bw_inner b) bs) as H1. pose proof (Hagree (bw_inner b) bs) as H2.
  destruct (put (bw_inner b) bs) as [[w rest] ok]. cbn in *. split; [done|]. intros HK. by rewrite H2.
Qed.
Lemma write_all_agree b bs : bcalls b ≤ bcalls (bw_write_all put cap b bs).1 ∧
  (bcalls (bw_write_all put cap b bs).1 ≤ K → bw_write_all put' cap b bs = bw_write_all put cap b bs).
Proof.
  unfold bw_write_all. destruct (_ <? _); [done|]. destruct (_ <? _).
  - destruct (flush_buf_agree b) as [H1 H2]. destruct (bw_flush_buf put b) as [b2 ok]. cbn [fst] in *. destruct ok.
    + destruct (cap <=? length bs).
      * destruct (direct_agree b2 bs) as [H3 H4]. split; [lia|]. intros HK. rewrite H2 by lia. by apply H4.
      * cbn [fst bw_inner] in *. split; [done|]. intros HK. by rewrite H2.
    + cbn [fst] in *. split; [done|]. intros HK. by rewrite H2.
  - destruct (cap <=? length bs); [apply direct_agree|done].
Qed.
Lemma pieces_agree ps : ∀ b, bcalls b ≤ bcalls (write_pieces put cap b ps).1 ∧
  (bcalls (write_pieces put cap b ps).1 ≤ K → write_pieces put' cap b ps = write_pieces put cap b ps).
Proof.
  induction ps as [|p ps IH]; intros b; cbn [write_pieces]; [done|]. destruct (write_all_agree b p) as [H1 H2].
  destruct (bw_write_all put cap b p) as [b2 ok]. cbn [fst] in *. destruct ok.
  - destruct (IH b2) as [H3 H4]. split; [lia|]. intros HK. rewrite H2 by lia. by apply H4.
  - split; [done|]. intros HK. by rewrite H2.
Qed.
Lemma flush_agree b : bcalls b ≤ bcalls (bw_flush put flush b).1 ∧ (bcalls (bw_flush put flush b).1 ≤ K → bw_flush put' flush' b = bw_flush put flush b).
Proof.
  unfold bw_flush. destruct (flush_buf_agree b) as [H1 H2]. destruct (bw_flush_buf put b) as [b2 ok]. cbn [fst] in *. destruct ok.
  - pose proof (Hfmono (bw_inner b2)) as H3. pose proof (Hfagree (bw_inner b2)) as H4. destruct (flush (bw_inner b2)) as [w ok]. cbn [fst bw_inner] in *.
    split; [lia|]. intros HK. rewrite H2 by lia. cbn [fst]. by rewrite H4.
  - split; [done|]. intros HK. by rewrite H2.
Qed.
End agree.

(** ** The gzip encoder *)
Section gzip.
Context (ans : nat → nat → option nat) (gz_header : list N) (C : Type) (c_new : C).
Context (c_step : C → list N → C * list N) (c_sync : C → C * list N) (c_end c_crc : C → list N).
Notation gz_blocks := (gz_blocks C c_step).
Notation gz_put := (gz_put ans C c_step).
Notation gz_flush := (gz_flush ans C c_sync).
Notation gz_drop := (gz_drop ans C c_end c_crc).
Notation gz_finish := (gz_finish ans C c_end).

Lemma gz_blocks_snoc bl b : ∀ c, gz_blocks c (bl ++ [b]) =
  ((c_step (gz_blocks c bl).1 b).1, (gz_blocks c bl).2 ++ (c_step (gz_blocks c bl).1 b).2).
Proof.
  induction bl as [|b0 bl IH]; intros c; cbn [app M_Write.gz_blocks].
  - cbn [fst snd]. destruct (c_step c b) as [c' out]. cbn. by rewrite app_nil_r.
  - destruct (c_step c b0) as [c1 out1]. rewrite IH. destruct (gz_blocks c1 bl) as [c2 out2]. cbn. by rewrite app_assoc.
Qed.

(** The encoder holds the compressor state [c], and stored and pending bytes together are [s]. *)
Definition gz_is (g : gzw C) (c : C) (s : list N) : Prop :=
  gz_comp C g = c ∧ dv_data (gz_dev C g) ++ gz_hdr C g ++ gz_pend C g = s ∧ (gz_hdr C g ≠ [] → gz_pend C g = []) ∧ gz_ended C g = false.
Notation calls g := (dv_calls (gz_dev C g)).

Lemma gz_write_header_spec g c s g' ok : gz_is g c s → gz_write_header ans C g = (g', ok) →
  gz_is g' c s ∧ calls g ≤ calls g' ∧ (ok = true → gz_hdr C g' = []) ∧ (ok = false → (∃ n m, ans n m = None) ∧ gz_hdr C g' ≠ []) ∧
  dv_data (gz_dev C g) `prefix_of` dv_data (gz_dev C g') ∧ (gz_hdr C g = [] → ok = true).
Proof.
  intros (<- & <- & Hp & He). unfold gz_write_header. pose proof (dev_put_grow ans (gz_hdr C g) (gz_dev C g) 0) as Hgr.
  destruct (dev_put ans (gz_dev C g) 0 (gz_hdr C g)) as [[d rest] ok'] eqn:E. intros [= <- <-].
  pose proof E as E0. apply dev_put_spec in E as (H1 & H2 & H3 & H4). split_and!; [|done|done| |exact Hgr|].
  - split; [done|]. cbn. split; [by rewrite !app_assoc, H1|]. split; [|done].
    intros Hr. apply Hp. intros Hh. apply Hr. rewrite Hh in E0. by injection E0 as _ <- _.
  - intros ->. split; [by apply H4|]. by eapply dev_put_fail.
  - intros Hh. rewrite Hh in E0. by injection E0 as _ _ <-.
Qed.
Lemma gz_dump_spec g c s g' ok : gz_is g c s → gz_hdr C g = [] → gz_dump ans C g = (g', ok) →
  gz_is g' c s ∧ calls g ≤ calls g' ∧ gz_hdr C g' = [] ∧ (ok = true → gz_pend C g' = []) ∧ (ok = false → ∃ n m, ans n m = None).
Proof.
  intros (<- & <- & Hp & He) Hh. unfold gz_dump. destruct (dev_put ans (gz_dev C g) 0 (gz_pend C g)) as [[d rest] ok'] eqn:E. intros [= <- <-].
  apply dev_put_spec in E as (H1 & H2 & H3 & H4). split_and!; [|done|done|done|done]. split; [done|]. cbn. rewrite Hh. cbn. done.
Qed.
Lemma gz_put_spec g c s bs g' rest ok : gz_is g c s → gz_put g bs = (g', rest, ok) → calls g ≤ calls g' ∧
  ((ok = true ∧ rest = [] ∧ (bs = [] ∧ g' = g ∨ bs ≠ [] ∧ gz_is g' (c_step c bs).1 (s ++ (c_step c bs).2) ∧ gz_hdr C g' = [])) ∨
   (ok = false ∧ rest = bs ∧ bs ≠ [] ∧ gz_is g' c s ∧ (∃ n m, ans n m = None) ∧ (gz_hdr C g = [] → gz_hdr C g' = []))).
Proof.
  intros Hg. unfold M_Write.gz_put. destruct bs as [|b bs]; [intros [= <- <- <-]; split; [done|]; left; split_and!; auto|].
  destruct (gz_write_header ans C g) as [g1 ok1] eqn:E1. destruct (gz_write_header_spec _ _ _ _ _ Hg E1) as (Hg1 & Hc1 & Hh1 & Hf1 & _ & Hk1).
  destruct ok1; [|intros [= <- <- <-]; split; [done|]; right; destruct (Hf1 eq_refl) as [Hf _]; split_and!; auto; intros Hh; by apply Hk1 in Hh].
  destruct (gz_dump ans C g1) as [g2 ok2] eqn:E2. destruct (gz_dump_spec _ _ _ _ _ Hg1 (Hh1 eq_refl) E2) as (Hg2 & Hc2 & Hh2 & Hp2 & Hf2).
  destruct ok2; [|intros [= <- <- <-]; split; [lia|]; right; split_and!; auto].
  destruct Hg2 as (Hcomp & Hs & _ & He). rewrite Hcomp. destruct (c_step c (b :: bs)) as [c' out]. intros [= <- <- <-]. cbn [fst snd gz_dev gz_hdr]. split; [lia|].
  left. split_and!; [done|done|]. right. split; [done|]. split; [|done]. split; [done|]. cbn. rewrite Hh2. cbn. rewrite <- Hs, Hh2. cbn. split; [by rewrite app_assoc|done].
Qed.
Lemma gz_flush_spec g c s g' ok : gz_is g c s → gz_flush g = (g', ok) → calls g ≤ calls g' ∧
  ((ok = true ∧ gz_is g' (c_sync c).1 (s ++ (c_sync c).2) ∧ gz_hdr C g' = [] ∧ gz_pend C g' = []) ∨
   (ok = false ∧ (gz_is g' c s ∧ gz_hdr C g ≠ [] ∨ gz_is g' (c_sync c).1 (s ++ (c_sync c).2) ∧ gz_hdr C g' = []) ∧ ∃ n m, ans n m = None)).
Proof.
  intros Hg. unfold M_Write.gz_flush.
  destruct (gz_write_header ans C g) as [g1 ok1] eqn:E1. destruct (gz_write_header_spec _ _ _ _ _ Hg E1) as (Hg1 & Hc1 & Hh1 & Hf1 & _ & Hk1).
  destruct ok1; [|intros [= <- <-]; split; [done|]; right; destruct (Hf1 eq_refl) as [Hf _]; split_and!; auto; left; split; [done|]; intros Hh; by apply Hk1 in Hh].
  destruct Hg1 as (Hcomp & Hs & _ & He). rewrite Hcomp. destruct (c_sync c) as [c' out]. intros E2.
  assert (gz_is (Gzw C (gz_hdr C g1) c' (gz_pend C g1 ++ out) (gz_ended C g1) (gz_dev C g1)) c' (s ++ out)) as Hg1'.
  { split; [done|]. cbn. rewrite (Hh1 eq_refl) in *. cbn in *. rewrite <- Hs. split; [by rewrite app_assoc|done]. }
  destruct (gz_dump_spec _ _ _ _ _ Hg1' (Hh1 eq_refl) E2) as (Hg2 & Hc2 & Hh2 & Hp2 & Hf2). cbn [gz_dev] in Hc2. split; [lia|].
  destruct ok; [left|right]; split_and!; auto.
Qed.

(** What is stored, pending or still to be emitted, without the checksum. *)
Definition gz_all (g : gzw C) : list N := dv_data (gz_dev C g) ++ gz_pend C g ++ (if gz_ended C g then [] else c_end (gz_comp C g)).
Lemma gz_dump_all g g' ok : gz_dump ans C g = (g', ok) →
  gz_all g' = gz_all g ∧ gz_ended C g' = gz_ended C g ∧ gz_comp C g' = gz_comp C g ∧ gz_hdr C g' = gz_hdr C g ∧
  dv_data (gz_dev C g) `prefix_of` dv_data (gz_dev C g') ∧ (ok = true → gz_pend C g' = []) ∧ (ok = false → ∃ n m, ans n m = None).
Proof.
  unfold gz_dump. pose proof (dev_put_grow ans (gz_pend C g) (gz_dev C g) 0) as Hgr.
  destruct (dev_put ans (gz_dev C g) 0 (gz_pend C g)) as [[d rest] ok'] eqn:E. intros [= <- <-].
  apply dev_put_spec in E as (H1 & H2 & _ & H4). split_and!; [|done..]. unfold gz_all. cbn. by rewrite !app_assoc, H1.
Qed.
Lemma gz_finish_all g g' ok : gz_finish g = (g', ok) →
  gz_all g' = gz_all g ∧ dv_data (gz_dev C g) `prefix_of` dv_data (gz_dev C g') ∧ gz_comp C g' = gz_comp C g ∧ gz_hdr C g' = gz_hdr C g ∧
  (ok = true → gz_pend C g' = [] ∧ gz_ended C g' = true) ∧ (ok = false → ∃ n m, ans n m = None).
Proof.
  unfold M_Write.gz_finish. destruct (gz_dump ans C g) as [g1 ok1] eqn:E1. destruct (gz_dump_all _ _ _ E1) as (Ha & He & Hc & Hh & Hg & Hp & Hf).
  destruct ok1; [|intros [= <- <-]; split_and!; auto; done]. destruct (gz_ended C g1) eqn:E2.
  - intros [= <- <-]. split_and!; auto.
  - intros E3. destruct (gz_dump_all _ _ _ E3) as (Ha3 & He3 & Hc3 & Hh3 & Hg3 & Hp3 & Hf3). cbn in He3, Hc3, Hh3, Hg3. split_and!; [|by etrans|congruence|congruence|auto|done].
    rewrite Ha3, <- Ha. unfold gz_all. cbn. rewrite E2, (Hp eq_refl). by rewrite app_nil_r.
Qed.

(** The destructor writes a prefix of the rest of the stream, all of it if the device never fails.  But
    if the rest of the header is refused, the end of the empty stream may still be written. *)
Lemma gz_drop_spec g c s : gz_is g c s →
  dv_data (gz_dev C g) `prefix_of` dv_data (gz_dev C (gz_drop g)) ∧
  (dv_data (gz_dev C (gz_drop g)) `prefix_of` s ++ c_end c ++ c_crc c ∨
   gz_hdr C g ≠ [] ∧ ∃ h1 h2 e, s = h1 ++ h2 ∧ h2 ≠ [] ∧ e `prefix_of` c_end c ∧ dv_data (gz_dev C (gz_drop g)) = h1 ++ e) ∧
  ((∀ n m, ans n m ≠ None) → dv_data (gz_dev C (gz_drop g)) = s ++ c_end c ++ c_crc c).
Proof.
  intros Hg. unfold M_Write.gz_drop, gz_try_finish.
  destruct (gz_write_header ans C g) as [g1 ok1] eqn:E1. destruct (gz_write_header_spec _ _ _ _ _ Hg E1) as (Hi1 & _ & Hh1 & Hf1 & Hgr1 & Hk1).
  destruct Hi1 as (Hc1 & Hs1 & Hp1 & He1). destruct ok1.
  - assert (gz_all g1 = s ++ c_end c) as Hall by (unfold gz_all; rewrite He1, Hc1, <- Hs1, (Hh1 eq_refl); cbn; by rewrite app_assoc).
    fold gz_finish. destruct (gz_finish g1) as [g2 ok2] eqn:E2. destruct (gz_finish_all _ _ _ E2) as (Ha2 & Hgr2 & Hc2 & _ & Hp2 & Hf2). destruct ok2.
    + destruct (Hp2 eq_refl) as [Hpend Hend]. assert (dv_data (gz_dev C g2) = s ++ c_end c) as Hd2.
      { rewrite <- Hall, <- Ha2. unfold gz_all. rewrite Hpend, Hend. by rewrite app_nil_r. }
      pose proof (dev_put_grow ans (c_crc (gz_comp C g2)) (gz_dev C g2) 0) as Hgr3.
      destruct (dev_put ans (gz_dev C g2) 0 (c_crc (gz_comp C g2))) as [[d rest] ok3] eqn:E3. cbn [fst] in Hgr3 |- *.
      apply dev_put_spec in E3 as (H1 & H2 & _ & H4). rewrite Hd2, Hc2, Hc1 in H1.
      set (g3 := Gzw C (gz_hdr C g2) (gz_comp C g2) (gz_pend C g2) (gz_ended C g2) d). destruct (gz_finish g3) as [g4 ok4] eqn:E4.
      assert (dv_data (gz_dev C g4) = dv_data d) as Hd4.
      { unfold M_Write.gz_finish, gz_dump in E4. cbn [gz_pend gz_dev g3] in E4. rewrite Hpend, dev_put_nil in E4. cbn [gz_ended] in E4. cbn [g3 gz_ended] in E4. rewrite Hend in E4.
        by injection E4 as <- _. }
      cbn [fst]. rewrite Hd4. split_and!.
      * etrans; [exact Hgr1|]. etrans; [exact Hgr2|exact Hgr3].
      * left. exists rest. by rewrite app_assoc, H1.
      * intros Hno. destruct ok3; [|destruct (H4 eq_refl) as (n & m & H); by destruct (Hno n m)]. rewrite (H2 eq_refl), app_nil_r in H1. by rewrite H1, app_assoc.
    + cbn [fst]. destruct (gz_finish g2) as [g4 ok4] eqn:E4. destruct (gz_finish_all _ _ _ E4) as (Ha4 & Hgr4 & _ & _ & _ & _). cbn [fst]. split_and!.
      * etrans; [exact Hgr1|]. by etrans.
      * left. rewrite app_assoc, <- Hall, <- Ha2, <- Ha4. apply prefix_app_r. unfold gz_all. by eexists.
      * intros Hno. destruct (Hf2 eq_refl) as (n & m & H). by destruct (Hno n m).
  - cbn [fst]. destruct (Hf1 eq_refl) as [Hf Hh]. fold gz_finish. destruct (gz_finish g1) as [g4 ok4] eqn:E4. destruct (gz_finish_all _ _ _ E4) as (Ha4 & Hgr4 & _ & _ & _ & _).
    cbn [fst]. split_and!.
    + by etrans.
    + right. split; [intros Hx; by apply Hk1 in Hx|]. destruct Hgr4 as [e He]. rewrite (Hp1 Hh), app_nil_r in Hs1.
      exists (dv_data (gz_dev C g1)), (gz_hdr C g1), e. split_and!; [done|done| |done].
      unfold gz_all in Ha4. rewrite He1, Hc1, (Hp1 Hh), He, <- app_assoc in Ha4. cbn in Ha4. apply app_inv_head in Ha4. rewrite <- Ha4. by eexists.
    + intros Hno. destruct Hf as (n & m & H). by destruct (Hno n m).
Qed.

(** The encoder has accepted the bytes [t], in some blocks. *)
Definition gz_inv (g : gzw C) (t : list N) : Prop :=
  ∃ bl, concat bl = t ∧ Forall (λ b, b ≠ []) bl ∧ (gz_hdr C g ≠ [] → bl = []) ∧ gz_is g (gz_blocks c_new bl).1 (gz_header ++ (gz_blocks c_new bl).2).
Lemma gz_inv_new : gz_inv (gz_new gz_header C c_new) [].
Proof. exists []. split; [done|]. split; [constructor|]. split; [done|]. split; [done|]. cbn. by rewrite app_nil_r. Qed.
Lemma gz_inv_put g t bs g' rest ok : gz_inv g t → gz_put g bs = (g', rest, ok) → ∃ t', bs = t' ++ rest ∧ gz_inv g' (t ++ t') ∧ (ok = true → rest = []).
Proof.
  intros (bl & <- & Hne & Hbl & Hg) E. destruct (gz_put_spec _ _ _ _ _ _ _ Hg E) as (_ & [(-> & -> & H)|(-> & -> & Hbs & Hg' & _ & Hh)]).
  - exists bs. rewrite app_nil_r. split; [done|]. split; [|done]. destruct H as [[-> ->]|(Hbs & Hg' & Hh)]; [rewrite app_nil_r; by exists bl|].
    exists (bl ++ [bs]). rewrite concat_app. cbn. rewrite app_nil_r. split; [done|]. split; [apply Forall_app; auto|]. split; [done|].
    rewrite gz_blocks_snoc. cbn. by rewrite app_assoc.
  - exists []. rewrite app_nil_r. split; [done|]. split; [|done]. exists bl. split_and!; [done|done|auto|done].
Qed.
End gzip.

(** Stopping the device. *)
Section gzip_stop.
Context (ans : nat → nat → option nat) (K : nat) (C : Type) (c_step : C → list N → C * list N) (c_sync : C → C * list N).
Notation calls g := (dv_calls (gz_dev C g)).
Notation ans' := (stop_after ans K).

Lemma gz_write_header_stop g : calls g ≤ calls (gz_write_header ans C g).1 ∧
  (calls (gz_write_header ans C g).1 ≤ K → gz_write_header ans' C g = gz_write_header ans C g).
Proof.
  unfold gz_write_header. pose proof (dev_put_stop ans K (gz_hdr C g) (gz_dev C g) 0) as H1.
  destruct (dev_put ans (gz_dev C g) 0 (gz_hdr C g)) as [[d rest] ok] eqn:E. apply dev_put_spec in E as (_ & _ & H2 & _). cbn [fst gz_dev] in *.
  split; [done|]. intros HK. by rewrite H1.
Qed.
Lemma gz_dump_stop g : calls g ≤ calls (gz_dump ans C g).1 ∧ (calls (gz_dump ans C g).1 ≤ K → gz_dump ans' C g = gz_dump ans C g).
Proof.
  unfold gz_dump. pose proof (dev_put_stop ans K (gz_pend C g) (gz_dev C g) 0) as H1.
  destruct (dev_put ans (gz_dev C g) 0 (gz_pend C g)) as [[d rest] ok] eqn:E. apply dev_put_spec in E as (_ & _ & H2 & _). cbn [fst gz_dev] in *.
  split; [done|]. intros HK. by rewrite H1.
Qed.
Lemma gz_put_stop g bs : calls g ≤ calls (gz_put ans C c_step g bs).1.1 ∧
  (calls (gz_put ans C c_step g bs).1.1 ≤ K → gz_put ans' C c_step g bs = gz_put ans C c_step g bs).
Proof.
  unfold gz_put. destruct bs as [|b bs]; [done|]. destruct (gz_write_header_stop g) as [H1 H2].
  destruct (gz_write_header ans C g) as [g1 ok1]. cbn [fst] in *. destruct ok1; [|split; [done|]; intros HK; by rewrite H2].
  destruct (gz_dump_stop g1) as [H3 H4]. destruct (gz_dump ans C g1) as [g2 ok2]. cbn [fst] in *. destruct ok2.
  - destruct (c_step (gz_comp C g2) (b :: bs)) as [c out] eqn:E. cbn [fst gz_dev] in *. split; [lia|]. intros HK. rewrite H2 by lia. rewrite H4 by lia. by rewrite E.
  - cbn [fst] in *. split; [lia|]. intros HK. rewrite H2 by lia. by rewrite H4.
Qed.
Lemma gz_flush_stop g : calls g ≤ calls (gz_flush ans C c_sync g).1 ∧
  (calls (gz_flush ans C c_sync g).1 ≤ K → gz_flush ans' C c_sync g = gz_flush ans C c_sync g).
Proof.
  unfold gz_flush. destruct (gz_write_header_stop g) as [H1 H2]. destruct (gz_write_header ans C g) as [g1 ok1]. cbn [fst] in *.
  destruct ok1; [|split; [done|]; intros HK; by rewrite H2]. destruct (c_sync (gz_comp C g1)) as [c out] eqn:E.
  destruct (gz_dump_stop (Gzw C (gz_hdr C g1) c (gz_pend C g1 ++ out) (gz_ended C g1) (gz_dev C g1))) as [H3 H4]. cbn [gz_dev] in H3. split; [lia|]. intros HK.
  rewrite H2 by lia. rewrite E. by apply H4.
Qed.
End gzip_stop.
