(** Counting lemmas about the main loop of the dominating-set algorithm: how often a vertex is an
    in-neighbour of a scattered vertex, and what that says about the size of the result. *)
From Verif Require Import Base Spec M_Graph M_Iterators M_EditGraph M_Operations M_OrdGraph M_Linear M_Domset
  S_Graph S_Linear S_Reach P_Graph P_Bipartite P_OrdGraph P_OrdGraph2 P_DegenGraph P_Linear P_Linear2 P_Wdist P_Domset.

(** ** Counting *)
Lemma size_cover (A Z : gset N) (F : N → gset N) (b : nat) :
  (∀ v, v ∈ A → ∃ z, z ∈ Z ∧ v ∈ F z) → (∀ z, z ∈ Z → size (F z) ≤ b) → size A ≤ size Z * b.
Proof.
  revert A. induction Z as [|z Z Hz IH] using set_ind_L; intros A Hc Hb.
  - assert (A = ∅) as ->; [|rewrite size_empty; lia]. apply elem_of_equiv_empty_L. intros v (z & Hz & _)%Hc. set_solver.
  - rewrite size_union, size_singleton by set_solver.
    assert (size (A ∖ F z) ≤ size Z * b) as H1.
    { apply IH; [|set_solver]. intros v [Hv Hn]%elem_of_difference. destruct (Hc v Hv) as (y & Hy & Hvy).
      apply elem_of_union in Hy as [->%elem_of_singleton|Hy]; [done|eauto]. }
    assert (size (F z) ≤ b) as H2 by (apply Hb; set_solver).
    assert (size A ≤ size (F z ∪ (A ∖ F z))) as H3.
    { apply subseteq_size. intros v Hv. destruct (decide (v ∈ F z)); set_solver. }
    rewrite size_union in H3 by set_solver. lia.
Qed.

Section double.
Context (R : N → N → Prop) `{!RelDecision R}.

Lemma double_count_sum (A : list N) (l : list N) (w : nat) :
  (∀ v, v ∈ l → length (filter (λ z, R z v) A) ≤ w) →
  sum_list_with (λ z, length (filter (R z) l)) A ≤ length l * w.
Proof.
  induction l as [|v l IH]; intros Hw.
  - clear Hw. induction A as [|z A IHA]; [done|]. cbn [sum_list_with]. rewrite filter_nil. exact IHA.
  - assert (sum_list_with (λ z, length (filter (R z) (v :: l))) A =
      length (filter (λ z, R z v) A) + sum_list_with (λ z, length (filter (R z) l)) A) as ->.
    { clear IH Hw. induction A as [|z A IHA]; [done|]. cbn [sum_list_with]. rewrite IHA.
      rewrite !filter_cons. destruct (decide (R z v)); cbn [length]; lia. }
    specialize (Hw v (elem_of_list_here _ _)) as Hv. specialize (IH (λ u Hu, Hw u (elem_of_list_further _ _ _ Hu))).
    cbn [length]. lia.
Qed.

Lemma double_count (A B : gset N) (b w : nat) :
  (∀ z, z ∈ A → b ≤ size (filter (R z) B)) →
  (∀ v, v ∈ B → size (filter (λ z, R z v) A) ≤ w) → size A * b ≤ size B * w.
Proof.
  intros Hb Hw.
  assert (∀ (P : N → Prop) `{!∀ x, Decision (P x)} (X : gset N), size (filter P X) = length (filter P (elements X))) as Hs.
  { intros P HP X. unfold size, set_size. cbn. apply Permutation_length, NoDup_Permutation.
    - apply NoDup_elements.
    - apply NoDup_filter, NoDup_elements.
    - intros x. rewrite elem_of_elements, elem_of_filter, elem_of_list_filter, elem_of_elements. done. }
  pose proof (double_count_sum (elements A) (elements B) w) as HH.
  assert (size A * b ≤ sum_list_with (λ z, length (filter (R z) (elements B))) (elements A)) as H1.
  { unfold size, set_size. cbn. assert (∀ z, z ∈ elements A → b ≤ length (filter (R z) (elements B))) as Hb'.
    { intros z Hz%elem_of_elements. rewrite <- Hs. by apply Hb. }
    clear -Hb'. induction (elements A) as [|z l IH]; [cbn; lia|]. cbn.
    specialize (Hb' z (elem_of_list_here _ _)) as Hz. specialize (IH (λ u Hu, Hb' u (elem_of_list_further _ _ _ Hu))). cbn in Hz. lia. }
  unfold size at 2, set_size. cbn. etrans; [exact H1|]. apply HH.
  intros v Hv%elem_of_elements. rewrite <- Hs. by apply Hw.
Qed.
End double.

Section with_wf.
Context `{HashIter} (L : lgraph) (HL : lgraph_wf L).
Let HW := lwf_graph L HL.

Section loop.
Context (r : nat) (W : gmap N (gmap N nat)) (HWm : wreach_map L r W).
Context (T : gset N) (cutoff : nat).

(** [z] is weakly reachable from [v]. *)
Definition hit (z v : N) : Prop := is_Some (W !! v ≫= λ Wv, Wv !! z).
Global Instance hit_dec : RelDecision hit.
Proof. intros z v. unfold hit. apply _. Defined.

Definition hits (S : gset N) (z : N) : nat := size (filter (hit z) S).

Lemma hits_add (S : gset N) v z : v ∉ S → hits ({[v]} ∪ S) z = (if decide (hit z v) then 1 else 0) + hits S z.
Proof.
  intros Hv. unfold hits. destruct (decide (hit z v)) as [Hh|Hh].
  - assert (filter (hit z) ({[v]} ∪ S) = {[v]} ∪ filter (hit z) S) as ->.
    { apply set_eq. intros x. rewrite elem_of_filter, !elem_of_union, elem_of_filter, elem_of_singleton. naive_solver. }
    rewrite size_union, size_singleton; [done|]. apply disjoint_singleton_l. rewrite elem_of_filter. naive_solver.
  - assert (filter (hit z) ({[v]} ∪ S) = filter (hit z) S) as ->; [|done].
    apply set_eq. intros x. rewrite !elem_of_filter, elem_of_union, elem_of_singleton. naive_solver.
Qed.

Lemma hit_entry z v Wv : W !! v = Some Wv → hit z v ↔ ∃ k, Wv !! z = Some k.
Proof. intros HWv. unfold hit. rewrite HWv. split; intros [k Hk]; exists k; exact Hk. Qed.

Lemma hits_0 (S : gset N) z : S = ∅ → hits S z = 0.
Proof. intros ->. unfold hits. apply size_empty_iff. intros x. rewrite elem_of_filter. set_solver. Qed.

(** What the counters mean. *)
Record cnt_inv (st : ds_state) : Prop := CntInv {
  ci_cnt : ∀ z c, ds_cnt st !! z = Some c → c = hits (ds_scat st) z;
  ci_out : ∀ z, z ∉ ds_dom st → hits (ds_scat st) z ≤ cutoff;
  ci_scat : ∀ z, z ∈ ds_scat st → hits (ds_scat st) z ≤ cutoff;
  ci_dom : ∀ z, z ∈ ds_dom st → z ∉ ds_scat st → hits (ds_scat st) z = S cutoff;
}.

(** The effect of the updates for the in-neighbours [l] of a new member on counters and members. *)
Lemma update_fold l : ∀ st st', fold_res (ds_update W cutoff) l st = Ok st' → NoDup l.*1 → (∀ u, u ∈ l.*1 → u ∉ ds_dom st) →
  ds_scat st' = ds_scat st ∧
  (∀ z c, ds_cnt st' !! z = Some c → z ∉ l.*1 → ds_cnt st !! z = Some c) ∧
  (∀ z c, ds_cnt st' !! z = Some c → z ∈ l.*1 → ∃ c0, c = S c0 ∧ ds_cnt st !! z = Some c0) ∧
  (∀ z, z ∈ ds_dom st' ↔ z ∈ ds_dom st ∨ z ∈ l.*1 ∧ ∃ c, ds_cnt st !! z = Some c ∧ cutoff < S c).
Proof.
  induction l as [|[u k] l IH]; intros st st' Hf Hnd Hout.
  - injection Hf as <-. split_and!; [done|done|set_solver|set_solver].
  - cbn [fold_res] in Hf. apply bind_ok in Hf as (st1 & Hu & Hf). cbn [fmap list_fmap fst] in Hnd, Hout.
    apply NoDup_cons in Hnd as [Hul Hnd].
    assert (ds_scat st1 = ds_scat st ∧ (∃ c, ds_cnt st !! u = Some c ∧ ds_cnt st1 = <[u := S c]> (ds_cnt st) ∧
      ds_dom st1 = if decide (cutoff < S c) then {[u]} ∪ ds_dom st else ds_dom st)) as (Hs1 & c & Hc & Hc1 & Hd1).
    { unfold ds_update in Hu. apply bind_ok in Hu as (c & Hc & Hu). apply bind_ok in Hu as (dd & _ & Hu).
      cbn [ds_dom ds_scat ds_dd ds_cnt] in Hu. assert (ds_cnt st !! u = Some c) as Hc' by (destruct (ds_cnt st !! u); cbn in Hc; congruence).
      rewrite (bool_decide_false (u ∈ ds_dom st)) in Hu by (apply Hout; set_solver). cbn [negb] in Hu. rewrite andb_true_r in Hu.
      destruct (Nat.ltb_spec cutoff (S c)) as [Hlt|Hge].
      - apply bind_ok in Hu as (Wu & _ & Hu). apply bind_ok in Hu as (dd' & _ & Hu). injection Hu as <-. cbn.
        split; [done|]. exists c. split; [done|]. split; [done|]. by rewrite decide_True.
      - injection Hu as <-. cbn. split; [done|]. exists c. split; [done|]. split; [done|]. rewrite decide_False; [done|lia]. }
    destruct (IH st1 st' Hf Hnd) as (H1 & H2 & H3 & H4).
    { intros z Hz Hin. rewrite Hd1 in Hin. destruct (decide _); [apply elem_of_union in Hin as [->%elem_of_singleton|Hin]; [done|]|].
      - eapply Hout; [|exact Hin]. set_solver.
      - eapply Hout; [|exact Hin]. set_solver. }
    cbn [fmap list_fmap fst]. split_and!.
    + congruence.
    + intros z c' Hz Hn. apply not_elem_of_cons in Hn as [Hne Hn]. apply H2 in Hz; [|done]. rewrite Hc1, lookup_insert_ne in Hz by done. done.
    + intros z c' Hz [->|Hzl]%elem_of_cons.
      * apply H2 in Hz; [|done]. rewrite Hc1, lookup_insert in Hz. injection Hz as <-. eauto.
      * destruct (H3 z c' Hz Hzl) as (c0 & -> & Hc0). exists c0. split; [done|]. rewrite Hc1, lookup_insert_ne in Hc0; [done|].
        intros ->. done.
    + intros z. rewrite H4, Hd1. rewrite elem_of_cons. split.
      * intros [Hz|(Hzl & c' & Hc' & Hlt)].
        -- destruct (decide (cutoff < S c)); [apply elem_of_union in Hz as [->%elem_of_singleton|Hz]|]; eauto 10.
        -- right. split; [by right|]. exists c'. split; [|done]. rewrite Hc1, lookup_insert_ne in Hc'; [done|]. by intros ->.
      * intros [Hz|([->|Hzl] & c' & Hc' & Hlt)].
        -- left. destruct (decide _); set_solver.
        -- left. rewrite Hc in Hc'. injection Hc' as <-. rewrite decide_True by done. set_solver.
        -- right. split; [done|]. exists c'. split; [|done]. rewrite Hc1, lookup_insert_ne; [done|]. by intros ->.
Qed.

(** The distance of [v] after the first inner loop. *)
Lemma relax_fold v l : ∀ dd dd', fold_res (λ (dd : gmap N nat) p, du ← unwrap (dd !! p.1); ds_relax dd v (p.2 + du)) l dd = Ok dd' →
  (∀ u, u ∈ l.*1 → u ≠ v) →
  (∀ d, dd !! v = Some d → ∃ d', dd' !! v = Some d' ∧ d' ≤ d) ∧
  (∀ u k, (u, k) ∈ l → dd !! u = Some 0 → ∃ d, dd' !! v = Some d ∧ d ≤ k).
Proof.
  induction l as [|[u k] l IH]; intros dd dd' Hf Hne.
  - injection Hf as <-. split; [eauto|set_solver].
  - cbn [fold_res fst snd] in Hf. apply bind_ok in Hf as (dd1 & Hu & Hf). apply bind_ok in Hu as (du & Hdu & Hu).
    unfold ds_relax in Hu. apply bind_ok in Hu as (d & Hd & Hu). injection Hu as Hu.
    assert (dd !! u = Some du) as Hdu' by (destruct (dd !! u); cbn in Hdu; congruence).
    assert (dd !! v = Some d) as Hd' by (destruct (dd !! v); cbn in Hd; congruence).
    cbn [fmap list_fmap fst] in Hne. destruct (IH dd1 dd' Hf) as [H1 H2]; [intros z Hz; apply Hne; set_solver|].
    assert (dd1 !! v = Some (d `min` (k + du))) as Hv1 by (rewrite <- Hu; apply lookup_insert).
    destruct (H1 _ Hv1) as (d' & Hd2 & Hle). split.
    + intros e He. simplify_eq. exists d'. split; [done|lia].
    + intros z j [[= -> ->]|Hz]%elem_of_cons Hz0.
      * simplify_eq. exists d'. split; [done|lia].
      * apply (H2 z j Hz). rewrite <- Hu, lookup_insert_ne; [done|]. intros <-. apply (Hne v); [|done].
        right. apply elem_of_list_fmap. by exists (v, j).
Qed.

Lemma cnt_step pre st v st' : vtx L v → ds_inv L T r pre st → cnt_inv st → ds_step W T r cutoff st v = Ok st' → cnt_inv st'.
Proof.
  intros Hv Hinv [Hcnt Hout Hsc Hdom] Hs. unfold ds_step in Hs.
  destruct (wm_get L r W HWm v Hv) as (Wv & HWv & _). rewrite HWv in Hs. cbn [unwrap mbind res_bind] in Hs.
  apply bind_ok in Hs as (dd & Hdd & Hs). apply bind_ok in Hs as (dv & Hdv & Hs).
  assert (dd !! v = Some dv) as Hdv' by (destruct (dd !! v); cbn in Hdv; congruence).
  destruct (relax_fold v _ _ _ Hdd) as [HR1 HR2].
  { intros u Hu. apply elem_of_list_fmap in Hu as ([u' k] & -> & Hu%elem_of_map_iter).
    by destruct (wm_entry L HL r W HWm v Wv u' k HWv Hu) as (_ & ? & _). }
  destruct (Nat.leb_spec dv r) as [Hle|Hgt].
  { injection Hs as <-. split; cbn [ds_dom ds_scat ds_cnt]; done. }
  apply bind_ok in Hs as (_ & _ & Hs).
  assert (v ∉ ds_dom st) as HvD.
  { intros Hin%(di_zero _ _ _ _ _ Hinv). destruct (HR1 _ Hin) as (d' & ? & ?). simplify_eq. lia. }
  assert (v ∉ ds_scat st) as HvS by (intros ?%(di_scat _ _ _ _ _ Hinv); naive_solver).
  assert (∀ u k, Wv !! u = Some k → u ∉ ds_dom st ∧ u ≠ v) as HuD.
  { intros u k Hu. destruct (wm_entry L HL r W HWm v Wv u k HWv Hu) as (_ & ? & _ & _ & _ & Hk & _). split; [|done].
    intros Hin%(di_zero _ _ _ _ _ Hinv). destruct (HR2 u k) as (d & Hd & ?); [by apply elem_of_map_iter|done|]. simplify_eq. lia. }
  assert (∀ u, u ∈ (map_iter 22 Wv).*1 ↔ ∃ k, Wv !! u = Some k) as Hkeys.
  { intros u. rewrite elem_of_list_fmap. split.
    - intros ([u' k] & -> & Hu%elem_of_map_iter). by exists k.
    - intros [k Hk]. exists (u, k). split; [done|]. by apply elem_of_map_iter. }
  destruct (update_fold _ _ _ Hs) as (H1 & H2 & H3 & H4).
  { apply NoDup_map_iter_fst. }
  { intros u [k Hk]%Hkeys. cbn [ds_dom]. destruct (HuD u k Hk). set_solver. }
  cbn [ds_dom ds_scat ds_cnt] in H1, H2, H3, H4.
  assert (∀ z, hits (ds_scat st') z = (if decide (hit z v) then 1 else 0) + hits (ds_scat st) z) as Hh.
  { intros z. rewrite H1. by apply hits_add. }
  assert (∀ z, hit z v ↔ z ∈ (map_iter 22 Wv).*1) as Hhk.
  { intros z. rewrite Hkeys. by apply hit_entry. }
  assert (∀ z, hit z v → z ∉ ds_dom st ∧ z ≠ v ∧ ∃ c, ds_cnt st !! z = Some c ∧ c = hits (ds_scat st) z) as Hhit.
  { intros z Hz. pose proof Hz as (k & Hk)%(hit_entry z v Wv HWv). destruct (HuD z k Hk) as [? ?]. split_and!; [done|done|].
    destruct (proj2 (di_cnt _ _ _ _ _ Hinv z)) as [c Hc].
    { by destruct (wm_entry L HL r W HWm v Wv z k HWv Hk) as (_ & _ & _ & ? & _). }
    exists c. split; [done|]. by apply Hcnt. }
  split.
  - intros z c Hc. rewrite Hh. destruct (decide (hit z v)) as [Hz|Hz].
    + destruct (H3 z c Hc) as (c0 & -> & Hc0); [by apply Hhk|]. by rewrite (Hcnt z c0 Hc0).
    + apply H2 in Hc; [|by rewrite <- Hhk]. rewrite (Hcnt z c Hc). done.
  - intros z Hz. rewrite H4 in Hz. rewrite Hh. destruct (decide (hit z v)) as [Hv'|Hv'].
    + destruct (Hhit z Hv') as (_ & _ & c & Hc & Heq). destruct (decide (cutoff < S c)) as [Hlt|Hge]; [|lia].
      exfalso. apply Hz. right. split; [by apply Hhk|eauto].
    + cbn. apply Hout. intros Hin. apply Hz. left. set_solver.
  - intros z Hz. rewrite Hh. rewrite H1 in Hz. apply elem_of_union in Hz as [->%elem_of_singleton|Hz].
    + rewrite decide_False; [by apply Hout|]. intros Hvv. by destruct (Hhit v Hvv) as (_ & ? & _).
    + rewrite decide_False; [by apply Hsc|]. intros (Hn & _)%Hhit. apply Hn. by apply (di_scat _ _ _ _ _ Hinv).
  - intros z Hz Hn. rewrite Hh. rewrite H1 in Hn. rewrite H4 in Hz. destruct (decide (hit z v)) as [Hv'|Hv'].
    + destruct (Hhit z Hv') as (HzD & Hzv & c & Hc & Heq).
      destruct Hz as [Hz|(_ & c' & Hc' & Hlt)]; [set_solver|]. simplify_eq.
      specialize (Hout z HzD). lia.
    + destruct Hz as [Hz|[Hz%Hhk _]]; [|done]. cbn. apply Hdom; set_solver.
Qed.

Lemma cnt_init order : cnt_inv (ds_init T r order).
Proof.
  assert (∀ z, hits ∅ z = 0) as H0 by (intros z; by apply hits_0).
  split; unfold ds_init; cbn [ds_dom ds_scat ds_cnt]; [|intros; rewrite H0; lia|set_solver|set_solver].
  intros z c Hc. rewrite H0. revert Hc. induction order as [|x l IH] using rev_ind; [done|].
  rewrite foldl_snoc. destruct (decide (z = x)) as [->|Hne]; [rewrite lookup_insert; congruence|].
  rewrite lookup_insert_ne by done. apply IH.
Qed.

Lemma cnt_loop order st : order ≡ₚ vertices L → ds_loop W T r cutoff order = Ok st → cnt_inv st.
Proof.
  intros Ho Hl. destruct (fold_res_inv (ds_step W T r cutoff) (λ pre st, ds_inv L T r pre st ∧ cnt_inv st) order (ds_init T r order))
    as (st' & Hl' & _ & Hc).
  - split; [by eapply ds_init_inv|apply cnt_init].
  - intros l1 v l2 st1 Heq [Hi Hc]. assert (vtx L v) as Hv by (apply (vs_vtx L HL); rewrite <- Ho, Heq; set_solver).
    destruct (ds_step_inv L HL r W HWm T r cutoff l1 st1 v Hv Hi) as (st2 & Hs & Hi2). exists st2. split; [done|]. split; [done|].
    exact (cnt_step l1 st1 v st2 Hv Hi Hc Hs).
  - unfold ds_loop in Hl. congruence.
Qed.

(** The size of the result, compared with an arbitrary dominating set [X]. *)
Lemma loop_size st w (X : gset N) pre : ds_inv L T r pre st → cnt_inv st →
  (∀ u Wu, W !! u = Some Wu → size Wu ≤ w) →
  (∀ x, x ∈ X → vtx L x) → (∀ v, v ∈ T → vtx L v → ∃ x, x ∈ X ∧ within (adj L) r x v) →
  size (ds_scat st) ≤ size X * ((w + 1) * S cutoff) ∧
  size (ds_dom st) * S cutoff ≤ size (ds_scat st) * (S cutoff + w) ∧
  size (ds_dom st) ≤ size X * ((w + 1) * (S cutoff + w)).
Proof.
  intros Hinv [Hcnt Hout Hsc Hdom] Hw HXv HX.
  set (N1 := λ x, {[x]} ∪ (match W !! x with Some Wx => dom Wx | None => ∅ end) : gset N).
  assert (size (ds_scat st) ≤ size X * ((w + 1) * S cutoff)) as HS.
  { set (Z := set_fold (λ x Z, N1 x ∪ Z) (∅ : gset N) X).
    assert (∀ z, z ∈ Z ↔ ∃ x, x ∈ X ∧ z ∈ N1 x) as HZ.
    { intros z. unfold Z. revert z. apply (set_fold_ind_L (λ Z X, ∀ z, z ∈ Z ↔ ∃ x, x ∈ X ∧ z ∈ N1 x)).
      { intros z. split; [intros ?%elem_of_empty; done|intros (x & ?%elem_of_empty & _); done]. }
      intros x X' Z' _ IH z. rewrite elem_of_union, IH. split.
      - intros [Hz|(y & Hy & Hz)]; [exists x|exists y]; (split; [|done]); [by apply elem_of_union_l, elem_of_singleton|by apply elem_of_union_r].
      - intros (y & [->%elem_of_singleton|Hy]%elem_of_union & Hz); [by left|right; eauto]. }
    assert (size Z ≤ size X * (w + 1)) as HZs.
    { apply (size_cover Z X N1); [intros z Hz; by apply HZ|]. intros x Hx. unfold N1.
      destruct (wm_get L r W HWm x) as (Wx & HWx & _); [by apply HXv|]. rewrite HWx.
      rewrite size_union_alt, size_singleton.
      assert (size (dom Wx ∖ {[x]} : gset N) ≤ size (dom Wx : gset N)) as H1 by (apply subseteq_size; set_solver).
      rewrite size_dom in H1. specialize (Hw x Wx HWx). lia. }
    assert (size (ds_scat st) ≤ size Z * S cutoff) as HSZ.
    { apply (size_cover (ds_scat st) Z (λ z, filter (λ v, v = z ∨ hit z v) (ds_scat st))).
      - intros v Hv. destruct (di_scat _ _ _ _ _ Hinv v Hv) as [HvD HvT]. pose proof (di_dom _ _ _ _ _ Hinv v HvD) as Hvv.
        destruct (HX v HvT Hvv) as (x & Hx & n & Hn & Hns). destruct (decide (x = v)) as [->|Hne].
        { exists v. split; [apply HZ; exists v; unfold N1; set_solver|]. apply elem_of_filter. eauto. }
        destruct (wm_dist L HL r W HWm x v n) as (Wx & Wv & HWx & HWv & Hcase); [by apply HXv|done|done|done|].
        destruct Hcase as [(k & Hk & _)|[(k & Hk & _)|(z & kx & ky & Hkx & Hky & _)]].
        + exists v. split; [|apply elem_of_filter; eauto]. apply HZ. exists x. split; [done|]. unfold N1. rewrite HWx.
          apply elem_of_union_r, elem_of_dom. by exists k.
        + exists x. split; [apply HZ; exists x; unfold N1; set_solver|]. apply elem_of_filter. split; [|done]. right.
          apply (hit_entry x v Wv HWv). by exists k.
        + exists z. split; [|apply elem_of_filter; split; [right; apply (hit_entry z v Wv HWv); by exists ky|done]].
          apply HZ. exists x. split; [done|]. unfold N1. rewrite HWx. apply elem_of_union_r, elem_of_dom. by exists kx.
      - intros z _. destruct (decide (z ∈ ds_scat st)) as [Hz|Hz].
        + etrans; [apply (subseteq_size _ ({[z]} ∪ filter (hit z) (ds_scat st)))|].
          { intros v [[->|?] ?]%elem_of_filter; [set_solver|]. apply elem_of_union_r, elem_of_filter. done. }
          rewrite size_union_alt, size_singleton.
          assert (size (filter (hit z) (ds_scat st) ∖ {[z]}) ≤ hits (ds_scat st) z) as H1 by (apply subseteq_size; set_solver).
          specialize (Hsc z Hz). lia.
        + assert (hits (ds_scat st) z ≤ S cutoff) as H1.
          { destruct (decide (z ∈ ds_dom st)) as [Hd|Hd]; [by rewrite Hdom|]. specialize (Hout z Hd). lia. }
          etrans; [|exact H1]. apply subseteq_size. intros v [[->|?] ?]%elem_of_filter; [done|]. by apply elem_of_filter. }
    nia. }
  assert (size (ds_dom st) * S cutoff ≤ size (ds_scat st) * (S cutoff + w)) as HD.
  { assert (size (ds_dom st ∖ ds_scat st) * S cutoff ≤ size (ds_scat st) * w) as H1.
    { apply (double_count hit).
      - intros z [Hz Hn]%elem_of_difference. pose proof (Hdom z Hz Hn) as HH. unfold hits in HH. lia.
      - intros v Hv. destruct (di_scat _ _ _ _ _ Hinv v Hv) as [HvD _].
        destruct (wm_get L r W HWm v) as (Wv & HWv & _); [by apply (di_dom _ _ _ _ _ Hinv)|].
        specialize (Hw v Wv HWv). rewrite <- size_dom in Hw. etrans; [|exact Hw]. apply subseteq_size.
        intros z [Hz _]%elem_of_filter. apply elem_of_dom. by apply (hit_entry z v Wv HWv). }
    assert (size (ds_dom st) ≤ size (ds_scat st) + size (ds_dom st ∖ ds_scat st)) as H2.
    { rewrite <- size_union_alt. apply subseteq_size. intros z Hz. destruct (decide (z ∈ ds_scat st)); set_solver. }
    nia. }
  split_and!; [done|done|].
  apply (Nat.mul_le_mono_pos_r _ _ (S cutoff)); [lia|]. nia.
Qed.

End loop.
End with_wf.
