(** Lemmas about [scattered_colouring]. *)
From Verif Require Import Base Spec M_Graph M_Iterators M_EditGraph M_Operations M_OrdGraph M_Linear M_Colouring M_Domset
  S_Graph S_Linear S_Reach P_Graph P_EditGraph P_EditGraph2 P_Adds P_Operations P_OrdGraph P_OrdGraph2 P_DegenGraph P_Linear P_Linear2
  P_Wdist P_Cliques T_Algorithms T_OrdGraph P_Greedy P_Colouring P_Domset P_Conflict.

(** ** Two positions of a list *)
Lemma list_upd2 {A} (l : list A) i j x y : i < j → l !! i = Some x → l !! j = Some y →
  ∃ k, l ≡ₚ x :: y :: k ∧ ∀ x' y', <[j := y']> (<[i := x']> l) ≡ₚ x' :: y' :: k.
Proof.
  revert i j. induction l as [|a l IH]; intros [|i] [|j] Hij Hi Hj; cbn in *; try done; try lia.
  - simplify_eq. clear IH. exists (delete j l). split.
    + constructor. by apply delete_Permutation.
    + intros x' y'. constructor. clear -Hj. revert j Hj. induction l as [|b l IH]; intros [|j] Hj; cbn in *; simplify_eq; [done|].
      rewrite (IH j Hj). apply perm_swap.
  - destruct (IH i j) as (k & Hk & Hu); [lia|done|done|]. exists (a :: k). split.
    + rewrite Hk. rewrite (perm_swap x a), (perm_swap y a). done.
    + intros x' y'. rewrite Hu. rewrite (perm_swap x' a), (perm_swap y' a). done.
Qed.

Lemma list_upd1 {A} (l : list A) i x : l !! i = Some x → ∃ k, l ≡ₚ x :: k ∧ ∀ x', <[i := x']> l ≡ₚ x' :: k.
Proof.
  revert i. induction l as [|a l IH]; intros [|i] Hi; cbn in *; simplify_eq.
  - by exists l.
  - destruct (IH i Hi) as (k & Hk & Hu). exists (a :: k). split; [by rewrite Hk, perm_swap|].
    intros x'. by rewrite Hu, perm_swap.
Qed.

(** ** Families of sets *)
Definition flat (l : list (gset N)) : list N := l ≫= elements.
(** Number of non-empty sets. *)
Definition ne (l : list (gset N)) : nat := length (filter (λ X, X ≠ ∅) l).

Lemma flat_cons X l : flat (X :: l) = elements X ++ flat l.
Proof. done. Qed.
Lemma flat_app l1 l2 : flat (l1 ++ l2) = flat l1 ++ flat l2.
Proof. unfold flat. by rewrite bind_app. Qed.
Global Instance flat_proper : Proper ((≡ₚ) ==> (≡ₚ)) flat.
Proof.
  intros l1 l2 HP. induction HP as [|X l1 l2 _ IH|X Y l|l1 l2 l3 _ IH1 _ IH2]; [done| | |by rewrite IH1].
  - by rewrite !flat_cons, IH.
  - rewrite !flat_cons. rewrite !(assoc_L (++)). by rewrite (Permutation_app_comm (elements Y)).
Qed.
Global Instance ne_proper : Proper ((≡ₚ) ==> (=)) ne.
Proof. intros l1 l2 HP. unfold ne. by rewrite HP. Qed.

Lemma flat_filter l : flat (filter (λ X, X ≠ ∅) l) = flat l.
Proof.
  induction l as [|X l IH]; [done|]. rewrite filter_cons. destruct (decide (X ≠ ∅)) as [HX|HX].
  - by rewrite !flat_cons, IH.
  - rewrite flat_cons, IH. destruct (decide (X = ∅)) as [->|]; [by rewrite elements_empty|done].
Qed.

Lemma elem_of_flat x l : x ∈ flat l ↔ ∃ X, X ∈ l ∧ x ∈ X.
Proof. unfold flat. rewrite elem_of_list_bind. setoid_rewrite elem_of_elements. naive_solver. Qed.

Lemma ne_cons X l : ne (X :: l) = if decide (X = ∅) then ne l else S (ne l).
Proof. unfold ne. rewrite filter_cons. destruct (decide (X ≠ ∅)), (decide (X = ∅)); done. Qed.

Lemma ne_flat l : ne l ≤ length (flat l).
Proof.
  induction l as [|X l IH]; [done|]. rewrite ne_cons, flat_cons, app_length. destruct (decide (X = ∅)) as [|Hne]; [lia|].
  assert (size X ≠ 0) by (by intros ?%size_empty_inv%leibniz_equiv). unfold size, set_size in *. cbn in *. lia.
Qed.

Lemma flat_NoDup_disjoint X Y k : NoDup (flat (X :: Y :: k)) → X ## Y.
Proof.
  rewrite !flat_cons. intros (_ & HH & _)%NoDup_app x HX HY. apply (HH x); [by apply elem_of_elements|].
  apply elem_of_app. left. by apply elem_of_elements.
Qed.

(** Every non-empty set of members of [X] has a member with at most 129 others within distance [d]. *)
Definition uncrowded_set (L : lgraph) (d : nat) (X : gset N) : Prop :=
  ∀ S, S ≠ ∅ → S ⊆ X → ∃ x, x ∈ S ∧ ∀ l, NoDup l → (∀ y, y ∈ l → y ∈ S ∧ y ≠ x ∧ within (adj L) d x y) → length l ≤ 129.

Lemma uncrowded_small (L : lgraph) d X : size X ≤ 130 → uncrowded_set L d X.
Proof.
  intros HX S Hne HS. apply set_choose_L in Hne as [x Hx]. exists x. split; [done|]. intros l Hnd Hl.
  assert (length (x :: l) ≤ size X) as Hle; [|cbn [length] in Hle; lia]. change (size X) with (length (elements X)).
  apply submseteq_length, NoDup_submseteq.
  - apply NoDup_cons. split; [|done]. intros Hin. by destruct (Hl x Hin) as (_ & ? & _).
  - intros y [->|Hy]%elem_of_cons; apply elem_of_elements, HS; [done|by apply Hl].
Qed.

Lemma ds_colours_uncrowded `{HashIter} (L : lgraph) h d sc : eg_wf h → (∀ x, ev h x ↔ x ∈ sc) →
  (∀ x y, ea h x y → x ≠ y ∧ within (adj L) d x y) → uncrowded_set L d sc →
  ∃ c, ds_colours h = Ok c ∧ ∀ v, is_Some (c !! v) ↔ ev h v.
Proof.
  intros Hh Hev Hea Hun. pose proof (eg_graph_wf h Hh) as Hg.
  assert (∀ x, ¬ ea h x x) as Hl by (intros x [? _]%Hea; done).
  destruct (by_degeneracy_greedy (eg_graph h) Hg (eg_loopless h Hh Hl)) as (g & c & Hok & _ & Hc & Hdom & _).
  { intros X k HX Hk. destruct (Hun X HX) as (x & Hx & Hle); [intros y Hy; apply Hev; by apply (Hk y Hy)|].
    destruct (Hk x Hx) as (_ & l & Hnd & Hkl & Hl2). etrans; [exact Hkl|]. apply Hle; [done|].
    intros y Hy. destruct (Hl2 y Hy) as [HyX Hxy]. destruct (Hea x y Hxy) as [? ?]. auto. }
  exists c. unfold ds_colours. rewrite Hok. cbn [mbind res_bind]. split; [done|]. exact Hdom.
Qed.

Section with_wf.
Context `{HashIter} (L : lgraph) (HL : lgraph_wf L).
Let HW := lwf_graph L HL.
Context (R : nat) (W : gmap N (gmap N nat)) (HWm : wreach_map L R W) (HR : (N.of_nat (2 * R) < u32_mod)%N).

(** ** [small_distance_sets] *)
Definition good (P : nat → Prop) (o : option nat) : Prop :=
  match o with Some k => least P k | None => ∀ k, ¬ P k end.

Lemma good_ext P Q o : good P o → (∀ k, Q k ↔ P k) → good Q o.
Proof.
  intros Ho HQ. destruct o as [k|]; cbn in *; [|intros k ?%HQ; by apply (Ho k)].
  destruct Ho as [? Hm]. split; [by apply HQ|]. intros j ?%HQ. auto.
Qed.

Definition sds_val (acc : option nat + unit) : option nat := match acc with inl o => o | inr _ => Some 0 end.

Definition set_dist (d : nat) (X Y : gset N) (k : nat) : Prop :=
  ∃ x y, x ∈ X ∧ y ∈ Y ∧ k ≤ d ∧ is_dist (adj L) k x y.

Lemma sds_step_spec d x y acc P : d ≤ R → vtx L x → vtx L y → good P (sds_val acc) →
  ∃ acc', sds_step W d x acc y = Ok acc' ∧ good (λ k, P k ∨ (k ≤ d ∧ is_dist (adj L) k x y)) (sds_val acc').
Proof.
  intros Hd Hx Hy Hg. unfold sds_step. destruct acc as [o|u]; cbn [sds_val] in Hg.
  - case_bool_decide as Hxy.
    + subst y. eexists. split; [done|]. split; [|lia]. right. split; [lia|]. split; [constructor|lia].
    + destruct (small_distance_spec L HL R W HWm d x y Hd HR Hx Hy) as (o' & -> & Ho'). cbn [mbind res_bind].
      eexists. split; [done|]. cbn [sds_val]. destruct o' as [e|].
      * destruct (proj1 (Ho' e) eq_refl) as [He1 He2]. destruct o as [f|]; cbn in *.
        -- destruct Hg as [Hf Hm]. split.
           ++ destruct (Nat.min_spec f e) as [[_ ->]|[_ ->]]; auto.
           ++ intros j [Hj|[_ Hj]]; [specialize (Hm j Hj); lia|]. assert (j = e) by (by eapply is_dist_unique). lia.
        -- split; [by right|]. intros j [Hj|[_ Hj]]; [by apply Hg in Hj|]. assert (j = e) by (by eapply is_dist_unique). lia.
      * eapply good_ext; [exact Hg|]. intros k. split; [|by left]. intros [?|HH]; [done|]. apply Ho' in HH. done.
  - eexists. split; [done|]. cbn in *. destruct Hg as [? _]. split; [by left|lia].
Qed.

Lemma small_distance_sets_spec d X Y : d ≤ R → (∀ x, x ∈ X → vtx L x) → (∀ y, y ∈ Y → vtx L y) →
  ∃ o, small_distance_sets W d X Y = Ok o ∧ good (set_dist d X Y) o.
Proof.
  intros Hd HX HY. unfold small_distance_sets.
  match goal with |- context [fold_res ?f ?l ?s] => edestruct (fold_res_inv f (λ pre acc,
    good (λ k, ∃ x y, x ∈ pre ∧ y ∈ Y ∧ k ≤ d ∧ is_dist (adj L) k x y) (sds_val acc)) l s) as (acc & -> & HH) end.
  - cbn. intros k (x & y & Hx & _). set_solver.
  - intros l1 x l2 acc Heq HI.
    assert (vtx L x) as Hx by (apply HX, (elem_of_hash_iter 31); rewrite Heq; set_solver).
    edestruct (fold_res_inv (sds_step W d x) (λ ys acc,
      good (λ k, (∃ x y, x ∈ l1 ∧ y ∈ Y ∧ k ≤ d ∧ is_dist (adj L) k x y) ∨ ∃ y, y ∈ ys ∧ k ≤ d ∧ is_dist (adj L) k x y) (sds_val acc))
      (hash_iter 30 Y) acc) as (acc' & Hacc & HH).
    + eapply good_ext; [exact HI|]. intros k. split; [|by left]. intros [?|(y & ? & _)]; [done|set_solver].
    + intros m1 y m2 acc1 Heq2 HI2.
      assert (vtx L y) as Hy by (apply HY, (elem_of_hash_iter 30); rewrite Heq2; set_solver).
      destruct (sds_step_spec d x y acc1 _ Hd Hx Hy HI2) as (acc2 & Hok & Hg). exists acc2. split; [done|].
      eapply good_ext; [exact Hg|]. intros k. split.
      * intros [?|(z & [Hz|Hz]%elem_of_app & HH)]; [by left; left|left; right; eauto|].
        apply elem_of_list_singleton in Hz as ->. by right.
      * intros [[?|(z & Hz & HH)]|HH]; [by left|right; exists z; split; [set_solver|done]|].
        right. exists y. split; [set_solver|done].
    + exists acc'. split; [done|]. eapply good_ext; [exact HH|]. intros k. split.
      * intros (z & y & [Hz|Hz]%elem_of_app & Hy & HH2); [left; eauto 10|].
        apply elem_of_list_singleton in Hz as ->. right. exists y. by rewrite elem_of_hash_iter.
      * intros [(z & y & Hz & HH2)|(y & Hy & HH2)]; [exists z, y; split; [set_solver|done]|].
        rewrite elem_of_hash_iter in Hy. exists x, y. split; [set_solver|done].
  - cbn [mbind res_bind]. exists (sds_val acc). split; [by destruct acc|]. eapply good_ext; [exact HH|].
    intros k. unfold set_dist. setoid_rewrite elem_of_hash_iter. done.
Qed.

Lemma nsteps_dist n x y : n ≤ R → vtx L x → vtx L y → nsteps (adj L) n x y → ∃ k, k ≤ n ∧ is_dist (adj L) k x y.
Proof.
  intros Hn Hx Hy Hns. destruct (small_distance_spec L HL R W HWm R x y) as (o & _ & Ho); [lia|done|done|done|].
  destruct o as [k|].
  - destruct (proj1 (Ho k) eq_refl) as [_ Hk]. exists k. split; [by apply Hk|done].
  - exfalso. assert (∀ m, m ≤ R → ¬ nsteps (adj L) m x y) as HH; [|by apply (HH n)].
    intros m. induction (lt_wf m) as [m _ IH]. intros Hm Hs.
    assert (None = Some m) as HN; [|done]. apply Ho. split; [done|]. split; [done|].
    intros j Hj. destruct (decide (m ≤ j)) as [|Hlt]; [done|]. exfalso. apply (IH j); [lia|lia|done].
Qed.

(** ** Merging classes *)
Context (D r : nat) (HD : D ≤ R) (HrD : 2 * r ≤ D) (T : gset N) (HT : ∀ x, x ∈ T → vtx L x).

(** Distinct members of [X] are at distance at least [b]. *)
Definition spread (b : nat) (X : gset N) : Prop :=
  ∀ x y n, x ∈ X → y ∈ X → x ≠ y → nsteps (adj L) n x y → b ≤ n.

Definition fam (l : list (gset N)) : Prop := flat l ≡ₚ elements T ∧ ∀ X, X ∈ l → spread (2 * r) X.

Global Instance fam_proper : Proper ((≡ₚ) ==> iff) fam.
Proof. intros l1 l2 HP. unfold fam. rewrite HP. by setoid_rewrite HP. Qed.

Lemma fam_vtx l X x : fam l → X ∈ l → x ∈ X → vtx L x.
Proof. intros [Hf _] HX Hx. apply HT, elem_of_elements. rewrite <- Hf. apply elem_of_flat. eauto. Qed.

Lemma fam_nodup l : fam l → NoDup (flat l).
Proof. intros [-> _]. apply NoDup_elements. Qed.

Lemma sc_try_spec un i j classes b X : i < j → j < length classes → fam (classes ++ un) → classes !! i = Some X → X ≠ ∅ →
  ∃ classes' b' X', sc_try W D r i (classes, b) j = Ok (classes', b') ∧ length classes' = length classes ∧
    fam (classes' ++ un) ∧ classes' !! i = Some X' ∧ X' ≠ ∅ ∧ ne classes' ≤ ne classes ∧
    (b' = true → b = true ∨ ne classes' < ne classes).
Proof.
  intros Hij Hj Hfam HX HXne. unfold sc_try. destruct (lookup_lt_is_Some_2 classes j Hj) as [Y HY]. rewrite HY.
  cbn [unwrap mbind res_bind]. case_bool_decide as HYe.
  { exists classes, b, X. split_and!; auto. }
  rewrite HX. cbn [unwrap mbind res_bind].
  destruct (list_upd2 classes i j X Y Hij HX HY) as (k & Hk & Hupd).
  assert (fam (X :: Y :: k ++ un)) as Hfam' by (rewrite Hk in Hfam; exact Hfam).
  destruct (small_distance_sets_spec D X Y HD) as (o & -> & Ho).
  { intros x Hx. eapply fam_vtx; [exact Hfam'|by left|done]. }
  { intros x Hx. eapply fam_vtx; [exact Hfam'|right; by left|done]. }
  cbn [mbind res_bind]. destruct (match o with Some d => d <? 2 * r | None => false end) eqn:Eo.
  { exists classes, b, X. split_and!; auto. }
  assert (∀ x y n, x ∈ X → y ∈ Y → nsteps (adj L) n x y → 2 * r ≤ n) as Hfar.
  { intros x y n Hx Hy Hn. destruct (decide (2 * r ≤ n)) as [|Hlt]; [done|]. exfalso.
    destruct (nsteps_dist n x y) as (e & He & Hde); [lia| | |done|].
    { eapply fam_vtx; [exact Hfam'|by left|done]. }
    { eapply fam_vtx; [exact Hfam'|right; by left|done]. }
    assert (set_dist D X Y e) as Hsd by (exists x, y; split_and!; [done|done|lia|done]).
    destruct o as [f|]; [|by apply Ho in Hsd]. destruct Ho as [_ Hm]. specialize (Hm e Hsd). apply Nat.ltb_ge in Eo. lia. }
  pose proof (fam_nodup _ Hfam') as Hnd. pose proof (flat_NoDup_disjoint _ _ _ Hnd) as Hdis.
  exists (<[j := ∅]> (<[i := X ∪ Y]> classes)), true, (X ∪ Y).
  split; [done|]. split; [by rewrite !insert_length|].
  split.
  { rewrite (Hupd (X ∪ Y) ∅). cbn [app]. destruct Hfam' as [Hf Hsp]. split.
    - rewrite <- Hf. rewrite !flat_cons, elements_empty, (elements_disj_union X Y Hdis). cbn [app]. by rewrite <- (assoc_L (++)).
    - intros Z [->|[->|HZ]%elem_of_cons]%elem_of_cons; [|intros ? ? ? ?; set_solver|apply Hsp; right; by right].
      assert (spread (2 * r) X) as HsX by (apply Hsp; left). assert (spread (2 * r) Y) as HsY by (apply Hsp; right; left).
      intros x y n [Hx|Hx]%elem_of_union [Hy|Hy]%elem_of_union Hne Hn; [by apply (HsX x y)|by apply (Hfar x y)| |by apply (HsY x y)].
      apply (Hfar y x n Hy Hx). apply nsteps_sym; [apply (wf_adj_sym _ HW)|done]. }
  split. { rewrite list_lookup_insert_ne by lia. apply list_lookup_insert. by apply lookup_lt_Some in HX. }
  assert (X ∪ Y ≠ ∅) as HXY by set_solver. split; [done|].
  assert (ne (<[j := ∅]> (<[i := X ∪ Y]> classes)) < ne classes) as Hne; [|split; [lia|by right]].
  rewrite (Hupd (X ∪ Y) ∅), Hk. rewrite !ne_cons. rewrite (decide_False (P := X ∪ Y = ∅)) by done.
  rewrite (decide_True (P := ∅ = ∅)) by done. rewrite (decide_False (P := X = ∅)), (decide_False (P := Y = ∅)) by done. lia.
Qed.

Lemma sc_class_spec un i classes improved : i < length classes → fam (classes ++ un) → (∀ X, X ∈ un → X ≠ ∅) →
  ∃ classes' un' improved', sc_class W D r (classes, un, improved) i = Ok (classes', un', improved') ∧
    length classes' = length classes ∧ fam (classes' ++ un') ∧ (∀ X, X ∈ un' → X ≠ ∅) ∧ ne classes' ≤ ne classes ∧
    (improved' = true → improved = true ∨ ne classes' < ne classes).
Proof.
  intros Hi Hfam Hun. unfold sc_class. destruct (lookup_lt_is_Some_2 classes i Hi) as [X HX]. rewrite HX.
  cbn [unwrap mbind res_bind]. case_bool_decide as HXe.
  { exists classes, un, improved. split_and!; auto. }
  destruct (fold_res_inv' (sc_try W D r i) (λ st, length st.1 = length classes ∧ fam (st.1 ++ un) ∧
     (∃ X', st.1 !! i = Some X' ∧ X' ≠ ∅) ∧ ne st.1 ≤ ne classes ∧ (st.2 = true → ne st.1 < ne classes))
     (seq (S i) (length classes - S i)) (classes, false)) as ([c b] & Hok & Hlen & Hfam2 & (X' & HX' & HXe') & Hne & Hb).
  { cbn [fst snd]. split_and!; [done|done|eauto|done|done]. }
  { intros j [c b] Hj (Hlen & Hf & (X' & HX' & HXe') & Hne & Hb). apply elem_of_seq in Hj. cbn [fst snd] in *.
    destruct (sc_try_spec un i j c b X') as (c' & b' & X'' & Hok & Hl' & Hf' & HX'' & HXe'' & Hne' & Hb'); [lia|lia|done|done|done|].
    exists (c', b'). cbn [fst snd]. split; [done|]. split_and!; [lia|done|eauto|lia|].
    intros Ht. destruct (Hb' Ht) as [Hbt|?]; [specialize (Hb Hbt)|]; lia. }
  rewrite Hok. cbn [mbind res_bind fst snd] in *. destruct b.
  { exists c, un, true. split_and!; auto. }
  rewrite HX'. cbn [unwrap mbind res_bind]. destruct (list_upd1 c i X' HX') as (k & Hk & Hupd).
  exists (<[i := ∅]> c), (un ++ [X']), improved. split; [done|]. split; [by rewrite insert_length|].
  split.
  { rewrite (Hupd ∅). rewrite Hk in Hfam2. cbn [app] in *. destruct Hfam2 as [Hf Hsp]. split.
    - rewrite <- Hf. rewrite !flat_cons, elements_empty. cbn [app]. rewrite !flat_app. rewrite (assoc_L (++)), (Permutation_app_comm _ (flat [X'])).
      by rewrite flat_cons, app_nil_r.
    - intros Z. rewrite elem_of_cons, !elem_of_app, elem_of_list_singleton. intros [->|[HZ|[HZ| ->]]].
      + intros ? ? ? ?; set_solver.
      + apply Hsp. right. apply elem_of_app. by left.
      + apply Hsp. right. apply elem_of_app. by right.
      + apply Hsp. left. }
  split. { intros Z [HZ|HZ]%elem_of_app; [by apply Hun|]. by apply elem_of_list_singleton in HZ as ->. }
  assert (ne (<[i := ∅]> c) ≤ ne c) as Hne2.
  { rewrite (Hupd ∅), Hk, !ne_cons. rewrite (decide_True (P := ∅ = ∅)) by done. destruct (decide _); lia. }
  split; [lia|auto].
Qed.

Lemma sc_merge_spec fuel : ∀ classes un, ne classes < fuel → fam (classes ++ un) → (∀ X, X ∈ un → X ≠ ∅) →
  ∃ l, sc_merge fuel W D r classes un = Ok l ∧ fam l ∧ ∀ X, X ∈ l → X ≠ ∅.
Proof.
  induction fuel as [|fuel IH]; intros classes un Hfuel Hfam Hun; [lia|]. cbn [sc_merge].
  set (cl := merge_sort smaller (filter (λ X : gset N, X ≠ ∅) classes)).
  assert (cl ≡ₚ filter (λ X, X ≠ ∅) classes) as Hcl by apply merge_sort_Permutation.
  assert (fam (cl ++ un)) as Hfam1.
  { rewrite Hcl. destruct Hfam as [Hf Hsp]. split; [by rewrite flat_app, flat_filter, <- flat_app|].
    intros X [[_ HX]%elem_of_list_filter|HX]%elem_of_app; apply Hsp, elem_of_app; auto. }
  assert (ne cl = ne classes) as Hne1.
  { rewrite Hcl. unfold ne. f_equal. rewrite list_filter_filter. apply list_filter_iff. naive_solver. }
  destruct (fold_res_inv' (sc_class W D r) (λ st, length st.1.1 = length cl ∧ fam (st.1.1 ++ st.1.2) ∧ (∀ X, X ∈ st.1.2 → X ≠ ∅) ∧
     ne st.1.1 ≤ ne cl ∧ (st.2 = true → ne st.1.1 < ne cl)) (seq 0 (length cl)) (cl, un, false))
     as ([[c u] b] & Hok & Hlen & Hf & Hu & Hne & Hb).
  { cbn [fst snd]. split_and!; done. }
  { intros i [[c u] b] Hi (Hlen & Hf & Hu & Hne & Hb). apply elem_of_seq in Hi. cbn [fst snd] in *.
    destruct (sc_class_spec u i c b) as (c' & u' & b' & Hok & Hl' & Hf' & Hu' & Hne' & Hb'); [lia|done|done|].
    exists (c', u', b'). cbn [fst snd]. split; [done|]. split_and!; [lia|done|done|lia|].
    intros Ht. destruct (Hb' Ht) as [Hbt|?]; [specialize (Hb Hbt)|]; lia. }
  rewrite Hok. cbn [mbind res_bind fst snd] in *. destruct b.
  - apply IH; [specialize (Hb eq_refl); lia|done|done].
  - eexists. split; [done|]. split.
    + destruct Hf as [Hf Hsp]. split.
      * rewrite flat_app, flat_filter, (Permutation_app_comm (flat u)), <- flat_app. done.
      * intros X [HX|[_ HX]%elem_of_list_filter]%elem_of_app; apply Hsp, elem_of_app; auto.
    + intros X [HX|[? _]%elem_of_list_filter]%elem_of_app; [by apply Hu|done].
Qed.

(** ** The rounds *)
Definition rounds_ok (m : gmap N N) (target : gset N) : Prop :=
  (∀ u, is_Some (m !! u) → u ∈ T) ∧ (∀ u, u ∈ target ↔ u ∈ T ∧ m !! u = None) ∧
  (∀ u v c n, m !! u = Some c → m !! v = Some c → u ≠ v → nsteps (adj L) n u v → 2 * r < n) ∧
  (∀ u c, m !! u = Some c → (c < N.of_nat (size m))%N).

Lemma sc_rounds_spec (B : Prop) `{!Decision B} order cutoff fuel :
  (B → uncrowded_set L (2 * r) T ∧ (N.of_nat (size T) < u32_mod)%N) →
  order ≡ₚ vertices L → ∀ target m, size target < fuel → rounds_ok m target →
  (¬ B ∧ sc_rounds fuel W r cutoff order target m = Panic) ∨
  ∃ m', sc_rounds fuel W r cutoff order target m = Ok m' ∧ rounds_ok m' ∅.
Proof.
  intros HB Ho. induction fuel as [|fuel IH]; intros target m Hfuel Hok; [lia|]. cbn [sc_rounds].
  case_bool_decide as Ht. { right. subst target. eauto. }
  pose proof Hok as (Hdom & Htar & Hspr & Hbd).
  assert (∀ x, x ∈ target → vtx L x) as HtV by (intros x [? _]%Htar; by apply HT).
  destruct (ds_loop_spec L HL R W HWm target r cutoff order Ho) as (st & -> & [Hdd Hcnt _ HdV Hscat Hemp Hpre]). cbn [mbind res_bind].
  set (sc := ds_scat st) in *.
  assert (∀ x, x ∈ sc → vtx L x) as HsV by (intros x [? _]%Hscat; auto).
  assert (∃ x, x ∈ sc) as [x0 Hx0].
  { apply set_choose_L. intros He. specialize (Hemp He). apply Ht. apply elem_of_equiv_empty_L. intros x Hx.
    destruct (Hpre x) as (k & Hk & Hkr); [rewrite Ho; by apply (vs_vtx L HL), HtV|].
    destruct Hdd as (_ & Hd2 & _). destruct (Hd2 x k Hk) as (y & Hy & _); [|by rewrite Hemp in Hy].
    destruct (decide (k < r)); [by left|right; split; [lia|done]]. }
  destruct (ds_conflict_spec L HL R W HWm false sc r HsV) as (h & -> & Hh & Hev & Hea); [lia|done|]. cbn [mbind res_bind].
  assert (∀ x, ¬ ea h x x) as Hll by (intros x (_ & _ & ? & _)%Hea; done).
  assert (eg_num_vertices h = size sc) as Hnh.
  { pose proof (eg_graph_wf h Hh) as Hg. change (eg_num_vertices h) with (num_vertices (eg_graph h)).
    rewrite (wf_num_vertices _ Hg). assert (vertices (eg_graph h) ≡ₚ elements sc) as ->; [|done].
    apply NoDup_Permutation; [apply (wf_vertices_nodup _ Hg)|apply NoDup_elements|]. intros x.
    rewrite elem_of_elements, <- Hev. by apply eg_vertices. }
  assert (sc ⊆ T) as HscT by (intros x [_ Hx]%Hscat; by apply Htar).
  assert (size sc ≤ size T) as Hss by (by apply subseteq_size).
  assert (size sc + size m ≤ size T) as Hsum.
  { rewrite <- (size_dom (D := gset N) m). rewrite <- (size_union (C := gset N)).
    - apply subseteq_size. intros x [Hx|Hx]%elem_of_union; [by apply HscT|]. apply elem_of_dom in Hx. by apply Hdom.
    - intros x Hx Hm. apply elem_of_dom in Hm as [c Hc]. apply Hscat in Hx as [_ Hx]. apply Htar in Hx as [_ Hx]. congruence. }
  assert (B → ∃ c, ds_colours h = Ok c ∧ ∀ v, is_Some (c !! v) ↔ ev h v) as Htotal.
  { intros [Hun _]%HB. apply (ds_colours_uncrowded L h (2 * r) sc Hh Hev); [by intros x y (_ & _ & ? & ?)%Hea|].
    intros S Hne HS. apply Hun; [done|]. by etrans. }
  destruct (ds_colours_spec h Hh Hll) as [Hp|(c & Hc & Hcdom & Hcprop)].
  { destruct (decide B) as [HBt|HBf]; [|left; rewrite Hp; done].
    exfalso. destruct (Htotal HBt) as (c & Hc & _). congruence. }
  rewrite Hc. cbn [mbind res_bind].
  (* the offset *)
  assert (∃ off, vc_offset ty_u32 m = (if (off <? u32_mod)%N then Ok off else Panic) ∧ (off <= N.of_nat (size m))%N) as (off & Hoff & Hoffle).
  { destruct (vc_offset_spec ty_u32 ty_u32_ok m) as [[-> Hz]|(u & a & Hu & _ & Hz)].
    - exists 0%N. rewrite Hz. split; [done|]. lia.
    - exists (a + 1)%N. rewrite Hz. split; [done|]. apply Hbd in Hu. lia. }
  destruct (vc_disjoint_extend ty_u32 m c) as [m'| |] eqn:Hext.
  2:{ left. split; [|done]. destruct (decide B) as [HBt|HBf]; [|done]. exfalso. destruct (HB HBt) as [_ HTu].
      assert ((off <? u32_mod)%N = true) as Hlt by (apply N.ltb_lt; lia). rewrite Hlt in Hoff.
      destruct (disjoint_extend_total ty_u32 m c off Hoff) as (m' & Hm'); [|congruence].
      intros u d Hu. destruct (Hcdom u d Hu) as [_ Hd]. exists (d + off)%N. cbn.
      replace (d + off <? u32_mod)%N with true; [done|]. symmetry. apply N.ltb_lt. lia. }
  2:{ exfalso. revert Hext. unfold vc_disjoint_extend. rewrite Hoff. destruct (off <? u32_mod)%N; [|done]. cbn [mbind res_bind].
      apply fold_res_no_diverge. intros s [? ?]. cbn. by destruct (_ <? u32_mod)%N. }
  cbn [mbind res_bind].
  destruct (disjoint_extend_lookup ty_u32 m c m' Hext) as (off' & Hoff' & Hold & Hnew & Hnone).
  assert (off' = off) as ->. { rewrite Hoff' in Hoff. destruct (off <? u32_mod)%N; congruence. }
  destruct (Nat.eqb_spec (size c) (size sc)) as [Hsz|Hsz].
  2:{ left. split; [|done]. destruct (decide B) as [HBt|HBf]; [|done]. exfalso. apply Hsz.
      destruct (Htotal HBt) as (c' & Hc' & Hall). rewrite Hc in Hc'. injection Hc' as <-.
      rewrite <- (size_dom (D := gset N) c). f_equal. apply set_eq. intros x. rewrite elem_of_dom, Hall. apply Hev. }
  cbn [assert_res mbind res_bind].
  assert (dom c = sc) as Hdc.
  { assert (dom c ⊆ sc) as Hsub by (intros x [a Hx]%elem_of_dom; by apply Hev, (Hcdom x a)).
    apply set_eq. intros x. split; [apply Hsub|]. intros Hx. destruct (decide (x ∈ dom c)) as [|Hn]; [done|]. exfalso.
    assert (dom c ⊂ sc) as Hss2 by (split; [done|]; intros HH; by apply Hn, HH). apply subset_size in Hss2.
    rewrite size_dom in Hss2. lia. }
  assert (∀ u, is_Some (c !! u) ↔ u ∈ sc) as Hcs by (intros u; rewrite <- Hdc, elem_of_dom; done).
  assert (∀ u, u ∈ sc → m !! u = None) as Hsm by (intros u [_ [_ ?]%Htar]%Hscat; done).
  assert (size m' = size m + size sc) as Hsm'.
  { rewrite <- (size_dom (D := gset N) m'), <- (size_dom (D := gset N) m), <- (size_union (C := gset N)).
    - f_equal. apply set_eq. intros x. rewrite elem_of_union, !elem_of_dom, <- Hcs. destruct (m !! x) as [a|] eqn:E.
      + rewrite (Hold x a E). naive_solver.
      + destruct (c !! x) as [d|] eqn:E2; [destruct (Hnew x d E E2) as (a & _ & ->); naive_solver|].
        rewrite (Hnone x E E2). naive_solver.
    - intros x Hm Hx. apply elem_of_dom in Hm as [a Ha]. by rewrite Hsm in Ha. }
  assert (∀ u a, m' !! u = Some a → m !! u = Some a ∨ (m !! u = None ∧ u ∈ sc ∧ ∃ d, c !! u = Some d ∧ a = (d + off)%N)) as Hcase.
  { intros u a Hu. destruct (m !! u) as [b|] eqn:E; [left; by rewrite (Hold u b E) in Hu|right; split; [done|]].
    destruct (c !! u) as [d|] eqn:E2; [|by rewrite (Hnone u E E2) in Hu].
    split; [apply Hcs; by exists d|]. exists d. split; [done|]. destruct (Hnew u d E E2) as (b & Hb & Hb'). cbn in Hb.
    destruct (d + off <? u32_mod)%N; [|done]. congruence. }
  assert (∀ u a, m !! u = Some a → (a < off)%N) as Hlow.
  { intros u a Hu. destruct (vc_offset_spec ty_u32 ty_u32_ok m) as [[-> _]|(w & e & Hw & Hmax & Hz)]; [done|].
    rewrite Hz in Hoff'. specialize (Hmax u a Hu). cbn in Hmax, Hoff'. apply N.leb_le in Hmax.
    destruct (e + 1 <? u32_mod)%N; [|done]. injection Hoff' as <-. lia. }
  apply IH.
  - assert (filter (λ u, m' !! u = None) target ⊂ target) as Hss2; [|apply subset_size in Hss2; lia].
    split; [intros x; set_solver|]. intros HH. assert (x0 ∈ target) as Hx0t by (by apply Hscat). apply HH in Hx0t.
    apply elem_of_filter in Hx0t as [Hn _]. destruct (proj2 (Hcs x0) Hx0) as [d Hd].
    destruct (Hnew x0 d (Hsm x0 Hx0) Hd) as (a & _ & Ha). congruence.
  - split; [|split; [|split]].
    + intros u [a Hu]. destruct (Hcase u a Hu) as [Hm|(_ & Hs & _)]; [apply Hdom; by exists a|by apply HscT].
    + intros u. rewrite elem_of_filter, Htar. split; [naive_solver|]. intros [HuT Hn]. split; [done|]. split; [done|].
      destruct (m !! u) as [a|] eqn:E; [|done]. by rewrite (Hold u a E) in Hn.
    + intros u v a n Hu Hv Hne Hns. apply Hcase in Hu as [Hu|(_ & Hus & du & Hdu & ->)]; apply Hcase in Hv as [Hv|(_ & Hvs & dv & Hdv & Hadv)].
      * by apply (Hspr u v a).
      * apply Hlow in Hu. lia.
      * apply Hlow in Hv. lia.
      * assert (du = dv) as <- by lia. destruct (decide (2 * r < n)) as [|Hle]; [done|]. exfalso.
        apply (Hcprop u v du du); [|done|done|done]. apply Hea. split_and!; [done|done|done|]. exists n. split; [lia|done].
    + intros u a Hu. rewrite Hsm'. apply Hcase in Hu as [Hu|(_ & Hus & du & Hdu & ->)]; [apply Hbd in Hu; lia|].
      apply Hcdom in Hdu as [_ Hdu]. lia.
Qed.

Lemma flat_invert (m : gmap N N) (l : list (N * gset N)) : NoDup l.*1 →
  (∀ c X u, (c, X) ∈ l → u ∈ X → m !! u = Some c) → NoDup (flat l.*2).
Proof.
  induction l as [|[c X] l IH]; [constructor|]. rewrite !fmap_cons. intros [Hc Hnd]%NoDup_cons Hm.
  cbn [fst snd] in *. rewrite flat_cons. apply NoDup_app. split_and!; [apply NoDup_elements| |].
  - intros x Hx%elem_of_elements (Y & HY & HxY)%elem_of_flat. apply elem_of_list_fmap in HY as ([c' Y'] & -> & HY). cbn in HxY.
    apply Hc. apply elem_of_list_fmap. exists (c', Y'). split; [|done]. cbn.
    assert (m !! x = Some c) by (eapply Hm; [left|done]). assert (m !! x = Some c') by (eapply Hm; [right; exact HY|done]). congruence.
  - apply IH; [done|]. intros c' X' u HX Hu. eapply Hm; [right; exact HX|done].
Qed.

Lemma invert_fam m : rounds_ok m ∅ → fam (map_iter 32 (vm_invert m)).*2.
Proof.
  intros (Hdom & Htar & Hspr & _). split.
  - apply NoDup_Permutation; [|apply NoDup_elements|].
    + eapply (flat_invert m); [apply NoDup_map_iter_fst|]. intros c X u HX Hu. apply elem_of_map_iter, vm_invert_spec in HX as [_ HX]. by apply HX.
    + intros x. rewrite elem_of_flat, elem_of_elements. split.
      * intros (X & HX & Hx). apply elem_of_list_fmap in HX as ([c X'] & -> & HX). apply elem_of_map_iter, vm_invert_spec in HX as [_ HX].
        apply Hdom. exists c. by apply HX.
      * intros Hx. destruct (m !! x) as [c|] eqn:E; [|exfalso; assert (x ∈ (∅ : gset N)) by (by apply Htar); set_solver].
        destruct (vm_invert m !! c) as [X|] eqn:E2.
        -- exists X. split; [apply elem_of_list_fmap; exists (c, X); split; [done|by apply elem_of_map_iter]|].
           apply vm_invert_spec in E2 as [_ E2]. by apply E2.
        -- exfalso. set (X := filter (λ u, m !! u = Some c) (dom m) : gset N).
           assert (vm_invert m !! c = Some X) as HX; [|congruence]. apply vm_invert_spec.
           assert (∀ u, u ∈ X ↔ m !! u = Some c) as HXs.
           { intros u. unfold X. rewrite elem_of_filter, elem_of_dom. split; [by intros [? _]|]. intros ?. split; [done|by eexists]. }
           split; [|done]. intros He. assert (x ∈ X) as Hin by (by apply HXs). rewrite He in Hin. set_solver.
  - intros X HX. apply elem_of_list_fmap in HX as ([c X'] & -> & HX). apply elem_of_map_iter, vm_invert_spec in HX as [_ HX].
    cbn. intros x y n Hx%HX Hy%HX Hne Hn. assert (2 * r < n); [|lia]. by apply (Hspr x y c).
Qed.
End with_wf.
