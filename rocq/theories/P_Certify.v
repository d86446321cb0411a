(** The conflict graph of the scattered set found by the dominating-set algorithm is sparse: every
    subset of it has a vertex of small degree. *)
From Verif Require Import Base Spec M_Graph M_Iterators M_EditGraph M_Operations M_OrdGraph M_Linear M_Domset
  S_Graph S_Linear S_Reach P_Graph P_Bipartite P_OrdGraph P_OrdGraph2 P_DegenGraph P_Linear P_Linear2 P_Wdist P_Domset P_Approx.

(** A symmetric relation that is covered by out-sets of size at most [o] has members of degree at most [2o] everywhere. *)
Lemma out_degeneracy (out : N → gset N) (E : N → N → Prop) (o k : nat) (S : gset N) :
  S ≠ ∅ → (∀ x, x ∈ S → size (out x) ≤ o) → (∀ x y, E x y → y ∈ out x ∨ x ∈ out y) →
  (∀ x, x ∈ S → ∃ l, NoDup l ∧ k ≤ length l ∧ ∀ y, y ∈ l → y ∈ S ∧ E x y) → k ≤ 2 * o.
Proof.
  intros Hne Ho HE Hk.
  set (R := λ x y, y ∈ out x). assert (RelDecision R) as HR by (intros x y; unfold R; apply _).
  set (A := elements S).
  assert (length A * k ≤ sum_list_with (λ x, length (filter (R x) A) + length (filter (λ y, R y x) A)) A) as H1.
  { assert (∀ l, (∀ x, x ∈ l → x ∈ S) → length l * k ≤ sum_list_with (λ x, length (filter (R x) A) + length (filter (λ y, R y x) A)) l) as HH;
      [|apply HH; intros x; apply elem_of_elements].
    induction l as [|x l IH]; intros Hl; [cbn; lia|]. cbn [length sum_list_with]. specialize (IH (λ y Hy, Hl y (elem_of_list_further _ _ _ Hy))).
    destruct (Hk x (Hl x (elem_of_list_here _ _))) as (ys & Hnd & Hlen & Hys).
    assert (length ys ≤ length (filter (R x) A) + length (filter (λ y, R y x) A)) as Hle; [|lia].
    rewrite <- app_length. apply submseteq_length, NoDup_submseteq; [done|]. intros y Hy. destruct (Hys y Hy) as [HyS Hxy].
    rewrite elem_of_app, !elem_of_list_filter. unfold R, A. rewrite elem_of_elements. destruct (HE x y Hxy); auto. }
  assert (∀ l, sum_list_with (λ x, length (filter (R x) A) + length (filter (λ y, R y x) A)) l =
    sum_list_with (λ x, length (filter (R x) A)) l + sum_list_with (λ x, length (filter (λ y, R y x) A)) l) as H2.
  { induction l as [|x l IH]; [done|]. cbn [sum_list_with]. rewrite IH. lia. }
  assert (∀ x, x ∈ A → length (filter (R x) A) ≤ o) as H3.
  { intros x Hx. etrans; [|apply (Ho x); by apply elem_of_elements]. unfold size, set_size. cbn.
    apply submseteq_length, NoDup_submseteq; [apply NoDup_filter, NoDup_elements|]. intros y [Hy _]%elem_of_list_filter. by apply elem_of_elements. }
  assert (sum_list_with (λ x, length (filter (R x) A)) A ≤ length A * o) as H4.
  { assert (∀ l, (∀ x, x ∈ l → x ∈ A) → sum_list_with (λ x, length (filter (R x) A)) l ≤ length l * o) as HH; [|by apply HH].
    induction l as [|x l IH]; intros Hl; [done|]. cbn [length sum_list_with]. specialize (IH (λ y Hy, Hl y (elem_of_list_further _ _ _ Hy))).
    specialize (H3 x (Hl x (elem_of_list_here _ _))). lia. }
  assert (sum_list_with (λ x, length (filter (λ y, R y x) A)) A ≤ length A * o) as H5 by exact (double_count_sum (λ x y, R y x) A A o H3).
  rewrite H2 in H1.
  assert (0 < length A) as H6. { destruct (set_choose_L S Hne) as (x & Hx). unfold A. apply elem_of_elements in Hx. destruct (elements S); [set_solver|cbn; lia]. }
  clear -H1 H4 H5 H6. generalize dependent (sum_list_with (λ x, length (filter (R x) A)) A). intros a.
  generalize dependent (sum_list_with (λ x, length (filter (λ y, R y x) A)) A). intros b H5 H1 H4. apply (Nat.mul_le_mono_pos_l _ _ (length A)); lia.
Qed.

Section with_wf.
Context `{HashIter} (L : lgraph) (HL : lgraph_wf L).
Context (r : nat) (W W2 : gmap N (gmap N nat)) (HWm : wreach_map L r W) (HWm2 : wreach_map L (2 * r) W2).
Context (cutoff g : nat) (Hg : ∀ u Wu, W2 !! u = Some Wu → size Wu ≤ g).

(** [x] and everything it weakly [2r]-reaches. *)
Definition cn (x : N) : gset N := {[x]} ∪ (match W2 !! x with Some Wx => dom Wx | None => ∅ end).
(** The members of [S] that are [z] or weakly [r]-reach it. *)
Definition cf (S : gset N) (z : N) : gset N := filter (λ v, v = z ∨ hit W z v) S.
Definition cout (S : gset N) (x : N) : gset N := set_fold (λ z X, cf S z ∪ X) ∅ (cn x) ∖ {[x]}.

Lemma cout_spec S x y : y ∈ cout S x ↔ y ≠ x ∧ ∃ z, z ∈ cn x ∧ y ∈ cf S z.
Proof.
  unfold cout. rewrite elem_of_difference, not_elem_of_singleton.
  assert (∀ y, y ∈ set_fold (λ z X, cf S z ∪ X) ∅ (cn x) ↔ ∃ z, z ∈ cn x ∧ y ∈ cf S z) as ->; [|tauto].
  clear y. apply (set_fold_ind_L (λ Z X, ∀ y, y ∈ Z ↔ ∃ z, z ∈ X ∧ y ∈ cf S z)).
  { intros y. split; [intros ?%elem_of_empty; done|intros (z & ?%elem_of_empty & _); done]. }
  intros z X' Z' _ IH y. rewrite elem_of_union, IH. split.
  - intros [Hy|(z' & Hz & Hy)]; [exists z|exists z']; (split; [|done]); [by apply elem_of_union_l, elem_of_singleton|by apply elem_of_union_r].
  - intros (z' & [->%elem_of_singleton|Hz]%elem_of_union & Hy); [by left|right; eauto].
Qed.

Lemma cn_size x : vtx L x → size (cn x) ≤ g + 1.
Proof.
  intros Hx. unfold cn. destruct (wm_get L (2 * r) W2 HWm2 x Hx) as (Wx & HWx & _). rewrite HWx, size_union_alt, size_singleton.
  assert (size (dom Wx ∖ {[x]} : gset N) ≤ size (dom Wx : gset N)) as H1 by (apply subseteq_size; set_solver).
  rewrite size_dom in H1. specialize (Hg x Wx HWx). lia.
Qed.

Section st.
Context (st : ds_state) (Hci : cnt_inv W cutoff st) (Hsv : ∀ x, x ∈ ds_scat st → vtx L x).

Lemma cf_size z : size (cf (ds_scat st) z) ≤ S cutoff.
Proof.
  destruct Hci as [Hcnt Hout Hsc Hdom]. unfold cf. destruct (decide (z ∈ ds_scat st)) as [Hz|Hz].
  + etrans; [apply (subseteq_size _ ({[z]} ∪ filter (hit W z) (ds_scat st)))|].
    { intros v [[->|?] ?]%elem_of_filter; [set_solver|]. apply elem_of_union_r, elem_of_filter. done. }
    rewrite size_union_alt, size_singleton.
    assert (size (filter (hit W z) (ds_scat st) ∖ {[z]}) ≤ hits W (ds_scat st) z) as H1 by (apply subseteq_size; set_solver).
    specialize (Hsc z Hz). lia.
  + assert (hits W (ds_scat st) z ≤ S cutoff) as H1.
    { destruct (decide (z ∈ ds_dom st)) as [Hd|Hd]; [by rewrite Hdom|]. specialize (Hout z Hd). lia. }
    etrans; [|exact H1]. apply subseteq_size. intros v [[->|?] ?]%elem_of_filter; [done|]. by apply elem_of_filter.
Qed.

Lemma cout_size x : x ∈ ds_scat st → size (cout (ds_scat st) x) ≤ (g + 1) * S cutoff - 1.
Proof.
  intros Hx. assert (size ({[x]} ∪ cout (ds_scat st) x) ≤ (g + 1) * S cutoff) as Hs.
  { etrans; [apply (size_cover _ (cn x) (cf (ds_scat st)) (S cutoff))|].
    - intros y [->%elem_of_singleton|(_ & Hy)%cout_spec]%elem_of_union; [|done].
      exists x. split; [unfold cn; set_solver|]. unfold cf. apply elem_of_filter. auto.
    - intros z _. apply cf_size.
    - apply Nat.mul_le_mono_r, cn_size. by apply Hsv. }
  rewrite size_union, size_singleton in Hs; [lia|]. apply disjoint_singleton_l. rewrite cout_spec. tauto.
Qed.

Lemma cout_cover x y : x ∈ ds_scat st → y ∈ ds_scat st → x ≠ y → within (adj L) (2 * r) x y →
  y ∈ cout (ds_scat st) x ∨ x ∈ cout (ds_scat st) y.
Proof.
  intros Hx Hy Hne (n & Hn & Hns). pose proof (Hsv x Hx) as Hxv. pose proof (Hsv y Hy) as Hyv.
  destruct (wm_dist L HL (2 * r) W2 HWm2 x y n Hxv Hne Hn Hns) as (Wx & Wy & HWx & HWy & Hc).
  assert (∀ u z Wu k, u ∈ ds_scat st → W2 !! u = Some Wu → Wu !! z = Some k → k ≤ r → u ∈ cf (ds_scat st) z) as Hnear.
  { intros u z Wu k Hu HWu Hk Hkr. unfold cf. apply elem_of_filter. split; [|done]. right.
    destruct (wm_entry L HL (2 * r) W2 HWm2 u Wu z k HWu Hk) as (_ & Hzu & Huv & _).
    apply (proj2 HWm2 u Wu HWu) in Hk as (_ & _ & Hwk & _).
    destruct (wm_reach L HL r W HWm u z k Huv) as (w & j & Hw & Hj & _); [done|done|done|].
    apply (hit_entry W z u w Hw). by exists j. }
  assert (∀ u z Wu k, W2 !! u = Some Wu → Wu !! z = Some k → z ∈ cn u) as Hfar.
  { intros u z Wu k HWu Hk. unfold cn. rewrite HWu. apply elem_of_union_r, elem_of_dom. eauto. }
  assert (∀ u, u ∈ ds_scat st → u ∈ cf (ds_scat st) u) as Hself by (intros u Hu; apply elem_of_filter; auto).
  rewrite !cout_spec. destruct Hc as [(k & Hk & _)|[(k & Hk & _)|(z & kx & ky & Hkx & Hky & Hle)]].
  - left. split; [done|]. exists y. split; [by eapply Hfar|by apply Hself].
  - right. split; [done|]. exists x. split; [by eapply Hfar|by apply Hself].
  - destruct (decide (ky ≤ r)) as [Hkr|Hkr].
    + left. split; [done|]. exists z. split; [by eapply Hfar|by eapply Hnear].
    + right. split; [done|]. exists z. split; [by eapply Hfar|]. eapply Hnear; [done|done|done|lia].
Qed.
End st.
End with_wf.
