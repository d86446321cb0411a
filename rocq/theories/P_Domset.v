(** Lemmas about the main loop of the dominating-set algorithm. *)
From Verif Require Import Base Spec M_Graph M_Iterators M_EditGraph M_Operations M_OrdGraph M_Linear M_Domset
  S_Graph S_Linear S_Reach P_Graph P_Bipartite P_OrdGraph P_OrdGraph2 P_DegenGraph P_Linear P_Linear2 P_Wdist.

Section with_wf.
Context `{HashIter} (L : lgraph) (HL : lgraph_wf L).
Let HW := lwf_graph L HL.

Lemma ds_order_spec : ∃ order, ds_order L = Ok order ∧ order ≡ₚ vertices L.
Proof.
  unfold ds_order.
  assert (∀ vs, (∀ v, v ∈ vs → vtx L v) → ∃ ks : list (nat * N),
    mapM (λ u, d ← left_degree L u; Ok (d * num_vertices L + degree L u, u)) vs = Ok ks ∧ ks.*2 = vs) as HH.
  { induction vs as [|v vs IH]; intros Hv; [by exists []|].
    destruct IH as (ks & Hks & Hk2); [set_solver|].
    destruct (left_degree_spec L v HL) as (l & _ & Hd); [apply Hv; left|]. cbn. rewrite Hd.
    cbn [mbind res_bind]. rewrite Hks. cbn [mbind res_bind]. eexists. split; [done|]. cbn. by rewrite Hk2. }
  destruct (HH (vertices L)) as (ks & Hks & Hk2); [intros v; apply (vs_vtx L HL)|]. rewrite Hks. cbn [mbind res_bind].
  eexists. split; [done|]. rewrite <- Hk2. apply fmap_Permutation, merge_sort_Permutation.
Qed.

Section loop.
Context (R : nat) (W : gmap N (gmap N nat)) (HWm : wreach_map L R W).
Context (T : gset N) (r cutoff : nat).

(** What the distances recorded during the loop mean: a recorded distance below [r], or equal to
    [r] for a target, is justified by a member of the dominating set. *)
Definition dd_ok (D : gset N) (dd : gmap N nat) : Prop :=
  (∀ v, is_Some (dd !! v) ↔ vtx L v) ∧
  (∀ v k, dd !! v = Some k → (k < r ∨ (k = r ∧ v ∈ T)) → ∃ x, x ∈ D ∧ within (adj L) k x v) ∧
  (∀ v k, dd !! v = Some k → v ∉ T → k ≤ r).

Definition dd_le (dd' dd : gmap N nat) : Prop := ∀ v k, dd !! v = Some k → ∃ k', dd' !! v = Some k' ∧ k' ≤ k.

Lemma dd_le_refl dd : dd_le dd dd.
Proof. intros v k ?. eauto. Qed.
Lemma dd_le_trans a b c : dd_le a b → dd_le b c → dd_le a c.
Proof. intros H1 H2 v k Hk. apply H2 in Hk as (k1 & Hk1 & ?). apply H1 in Hk1 as (k2 & ? & ?). exists k2. split; [done|lia]. Qed.

Lemma dd_ok_mono D D' dd : D ⊆ D' → dd_ok D dd → dd_ok D' dd.
Proof.
  intros HD (H1 & H2 & H3). split; [done|]. split; [|done]. intros v k Hk Hc.
  destruct (H2 v k Hk Hc) as (x & Hx & ?). exists x. split; [by apply HD|done].
Qed.

Lemma dd_insert_ok D dd v k d : dd_ok D dd → dd !! v = Some d → k ≤ d →
  (k < r ∨ (k = r ∧ v ∈ T) → ∃ x, x ∈ D ∧ within (adj L) k x v) →
  dd_ok D (<[v := k]> dd) ∧ dd_le (<[v := k]> dd) dd.
Proof.
  intros (H1 & H2 & H3) Hd Hk Hx. split; [split; [|split]|].
  - intros u. rewrite <- H1. destruct (decide (u = v)) as [->|Hne]; [rewrite lookup_insert, Hd; by split; intros _; eexists|].
    by rewrite lookup_insert_ne.
  - intros u j. destruct (decide (u = v)) as [->|Hne]; [rewrite lookup_insert; intros [= <-]; exact Hx|].
    rewrite lookup_insert_ne by done. apply H2.
  - intros u j. destruct (decide (u = v)) as [->|Hne].
    + rewrite lookup_insert. intros [= <-] HT. specialize (H3 v d Hd HT). lia.
    + rewrite lookup_insert_ne by done. apply H3.
  - intros u j Hj. destruct (decide (u = v)) as [->|Hne].
    + rewrite lookup_insert. exists k. split; [done|]. simplify_eq. lia.
    + rewrite lookup_insert_ne by done. eauto.
Qed.

Lemma ds_relax_ok D dd v k : dd_ok D dd → vtx L v →
  (k < r ∨ (k = r ∧ v ∈ T) → ∃ x, x ∈ D ∧ within (adj L) k x v) →
  ∃ dd', ds_relax dd v k = Ok dd' ∧ dd_ok D dd' ∧ dd_le dd' dd.
Proof.
  intros Hok Hv Hx. pose proof Hok as (H1 & H2 & H3). destruct (proj2 (H1 v) Hv) as [d Hd].
  unfold ds_relax. rewrite Hd. cbn [unwrap mbind res_bind]. eexists. split; [done|].
  apply (dd_insert_ok D dd v (min d k) d Hok Hd); [lia|].
  intros Hc. destruct (Nat.min_spec d k) as [[? E]|[? E]]; rewrite E in *; [by apply H2|by apply Hx].
Qed.

Lemma ds_relax_fold D x (Wx : gmap N nat) l : W !! x = Some Wx → x ∈ D → (∀ p, p ∈ l → Wx !! p.1 = Some p.2) →
  ∀ dd, dd_ok D dd →
  ∃ dd', fold_res (λ dd q, ds_relax dd q.1 q.2) l dd = Ok dd' ∧ dd_ok D dd' ∧ dd_le dd' dd.
Proof.
  intros HWx Hx Hl dd Hdd.
  apply (fold_res_inv' (λ dd q, ds_relax dd q.1 q.2) (λ dd', dd_ok D dd' ∧ dd_le dd' dd)).
  - split; [done|apply dd_le_refl].
  - intros [u k] dd1 Hp [H1 H2]. specialize (Hl _ Hp). cbn [fst snd] in *.
    destruct (wm_entry L HL R W HWm x Wx u k HWx Hl) as (_ & _ & _ & Hu & _ & _ & Hns).
    destruct (ds_relax_ok D dd1 u k H1 Hu) as (dd2 & Hok & H3 & H4).
    { intros _. exists x. split; [done|]. exists k. by split. }
    exists dd2. split; [done|]. split; [done|]. by eapply dd_le_trans.
Qed.

(** The invariant of the main loop. *)
Record ds_inv (pre : list N) (st : ds_state) : Prop := DsInv {
  di_dd : dd_ok (ds_dom st) (ds_dd st);
  di_cnt : ∀ v, is_Some (ds_cnt st !! v) ↔ vtx L v;
  di_zero : ∀ v, v ∈ ds_dom st → ds_dd st !! v = Some 0;
  di_dom : ∀ v, v ∈ ds_dom st → vtx L v;
  di_scat : ∀ v, v ∈ ds_scat st → v ∈ ds_dom st ∧ v ∈ T;
  di_empty : ds_scat st = ∅ → ds_dom st = ∅;
  di_pre : ∀ v, v ∈ pre → ∃ k, ds_dd st !! v = Some k ∧ k ≤ r;
}.

Lemma pre_le (pre : list N) (dd dd' : gmap N nat) : dd_le dd' dd → (∀ v, v ∈ pre → ∃ k, dd !! v = Some k ∧ k ≤ r) →
  ∀ v, v ∈ pre → ∃ k, dd' !! v = Some k ∧ k ≤ r.
Proof. intros Hle HH v Hv. destruct (HH v Hv) as (k & Hk & ?). destruct (Hle v k Hk) as (k' & ? & ?). exists k'. split; [done|lia]. Qed.

Lemma zero_le (D : gset N) (dd dd' : gmap N nat) : dd_le dd' dd → (∀ v, v ∈ D → dd !! v = Some 0) →
  ∀ v, v ∈ D → dd' !! v = Some 0.
Proof. intros Hle HH v Hv. destruct (Hle v 0 (HH v Hv)) as (k & ? & ?). by assert (k = 0) as -> by lia. Qed.

Lemma ds_update_inv pre x st u k Wx : W !! x = Some Wx → Wx !! u = Some k → x ∈ ds_scat st → ds_inv pre st →
  ∃ st', ds_update W cutoff st (u, k) = Ok st' ∧ ds_inv pre st' ∧ x ∈ ds_scat st'.
Proof.
  intros HWx Hk Hx [Hdd Hcnt Hz Hdom Hscat Hemp Hpre].
  destruct (wm_entry L HL R W HWm x Wx u k HWx Hk) as (_ & _ & Hvx & Hu & _ & _ & Hns).
  unfold ds_update. destruct (proj2 (Hcnt u) Hu) as [c Hc]. rewrite Hc. cbn [unwrap mbind res_bind].
  destruct (ds_relax_ok (ds_dom st) (ds_dd st) u k Hdd Hu) as (dd1 & -> & Hdd1 & Hle1).
  { intros _. exists x. split; [by apply Hscat|]. exists k. by split. }
  cbn [mbind res_bind ds_dom ds_scat ds_dd ds_cnt].
  assert (∀ v, is_Some (<[u := S c]> (ds_cnt st) !! v) ↔ vtx L v) as Hcnt'.
  { intros v. rewrite <- Hcnt. destruct (decide (v = u)) as [->|]; [rewrite lookup_insert, Hc; by split; intros _; eexists|].
    by rewrite lookup_insert_ne. }
  destruct ((cutoff <? S c) && negb (bool_decide (u ∈ ds_dom st))) eqn:E.
  - destruct (wm_get L R W HWm u Hu) as (Wu & HWu & _). rewrite HWu. cbn [unwrap mbind res_bind].
    assert (dd_ok ({[u]} ∪ ds_dom st) dd1) as Hdd1' by (eapply dd_ok_mono; [|done]; set_solver).
    destruct (proj2 (proj1 Hdd1' u) Hu) as [d Hd].
    destruct (dd_insert_ok ({[u]} ∪ ds_dom st) dd1 u 0 d Hdd1' Hd) as [Hdd2 Hle2]; [lia| |].
    { intros _. exists u. split; [set_solver|]. exists 0. split; [done|]. constructor. }
    destruct (ds_relax_fold ({[u]} ∪ ds_dom st) u Wu (map_iter 20 Wu) HWu) with (dd := <[u:=0]> dd1)
      as (dd3 & -> & Hdd3 & Hle3); [set_solver|by intros [? ?] ?%elem_of_map_iter|done|].
    cbn [mbind res_bind]. eexists. split; [done|]. split; [|done].
    split; cbn [ds_dom ds_scat ds_dd ds_cnt]; [done|done| | | | |].
    + apply (zero_le _ (<[u:=0]> dd1)); [done|]. intros v Hv. destruct (decide (v = u)) as [->|Hne]; [by rewrite lookup_insert|].
      rewrite lookup_insert_ne by done. eapply (zero_le (ds_dom st)); [exact Hle1|done|set_solver].
    + intros v [->%elem_of_singleton|?]%elem_of_union; auto.
    + intros v Hv. destruct (Hscat v Hv). split; [set_solver|done].
    + intros HE. rewrite HE in Hx. set_solver.
    + eapply pre_le; [|done]. eapply dd_le_trans; [done|]. by eapply dd_le_trans.
  - eexists. split; [done|]. split; [|done]. split; cbn [ds_dom ds_scat ds_dd ds_cnt]; auto; [by eapply zero_le|by eapply pre_le].
Qed.

Lemma ds_step_inv pre st v : vtx L v → ds_inv pre st →
  ∃ st', ds_step W T r cutoff st v = Ok st' ∧ ds_inv (pre ++ [v]) st'.
Proof.
  intros Hv [Hdd Hcnt Hz Hdom Hscat Hemp Hpre]. unfold ds_step.
  destruct (wm_get L R W HWm v Hv) as (Wv & HWv & _). rewrite HWv. cbn [unwrap mbind res_bind].
  edestruct (fold_res_inv' (λ dd p, du ← unwrap (dd !! p.1); ds_relax dd v (p.2 + du))
    (λ dd', dd_ok (ds_dom st) dd' ∧ dd_le dd' (ds_dd st)) (map_iter 21 Wv) (ds_dd st)) as (dd & -> & Hdd' & Hle).
  { split; [done|apply dd_le_refl]. }
  { intros [u k] dd1 Hp%elem_of_map_iter [H1 H2]. cbn [fst snd].
    destruct (wm_entry L HL R W HWm v Wv u k HWv Hp) as (_ & _ & _ & Hu & Hk1 & _ & Hns).
    destruct (proj2 (proj1 H1 u) Hu) as [du Hdu]. rewrite Hdu. cbn [unwrap mbind res_bind].
    destruct (ds_relax_ok (ds_dom st) dd1 v (k + du) H1 Hv) as (dd2 & Hok & H3 & H4).
    { intros Hc. destruct H1 as (_ & Hd2 & _). destruct (Hd2 u du Hdu) as (x & Hx & Hxu); [left; lia|].
      exists x. split; [done|]. rewrite Nat.add_comm. eapply within_trans; [done|].
      exists k. split; [done|]. by apply (nsteps_sym (adj L)); [apply (wf_adj_sym _ HW)|]. }
    exists dd2. split; [done|]. split; [done|]. by eapply dd_le_trans. }
  cbn [mbind res_bind]. destruct (proj2 (proj1 Hdd' v) Hv) as [dv Hdv]. rewrite Hdv. cbn [unwrap mbind res_bind].
  destruct (Nat.leb_spec dv r) as [Hlt|Hgt].
  - eexists. split; [done|]. split; cbn [ds_dom ds_scat ds_dd ds_cnt]; auto; [by eapply zero_le|].
    intros x [Hx|Hx]%elem_of_app; [by eapply (pre_le pre _ _ Hle)|]. apply elem_of_list_singleton in Hx as ->. eauto.
  - assert (v ∈ T) as HT.
    { destruct (decide (v ∈ T)) as [|Hn]; [done|]. destruct Hdd' as (_ & _ & H3). specialize (H3 v dv Hdv Hn). lia. }
    rewrite bool_decide_true by done. cbn [assert_res mbind res_bind].
    assert (dd_ok ({[v]} ∪ ds_dom st) dd) as Hdd1 by (eapply dd_ok_mono; [|done]; set_solver).
    destruct (dd_insert_ok ({[v]} ∪ ds_dom st) dd v 0 dv Hdd1 Hdv) as [Hdd2 Hle2]; [lia| |].
    { intros _. exists v. split; [set_solver|]. exists 0. split; [done|]. constructor. }
    edestruct (fold_res_inv' (ds_update W cutoff) (λ st', ds_inv (pre ++ [v]) st' ∧ v ∈ ds_scat st') (map_iter 22 Wv))
      as (st' & -> & ? & ?); [| |eauto].
    + split; [|set_solver]. split; cbn [ds_dom ds_scat ds_dd ds_cnt]; auto.
      * intros x Hx. destruct (decide (x = v)) as [->|Hne]; [by rewrite lookup_insert|].
        rewrite lookup_insert_ne by done. eapply (zero_le (ds_dom st)); [exact Hle|done|set_solver].
      * intros x [->%elem_of_singleton|?]%elem_of_union; auto.
      * intros x [->%elem_of_singleton|Hx]%elem_of_union; [set_solver|]. destruct (Hscat x Hx). set_solver.
      * intros ?. set_solver.
      * intros x [Hx|Hx]%elem_of_app.
        -- eapply (pre_le pre); [|done|done]. by eapply dd_le_trans.
        -- apply elem_of_list_singleton in Hx as ->. exists 0. rewrite lookup_insert. split; [done|lia].
    + intros [u k] st1 Hp%elem_of_map_iter [H1 H2]. by eapply ds_update_inv.
Qed.

Lemma ds_init_inv order : order ≡ₚ vertices L → ds_inv [] (ds_init T r order).
Proof.
  intros Ho. assert (NoDup order) as Hnd by (rewrite Ho; apply (vs_nodup L HL)).
  assert (∀ {A} (f : N → A) v, foldl (λ (m : gmap N A) v, <[v := f v]> m) ∅ order !! v =
     if decide (v ∈ order) then Some (f v) else None) as Hf.
  { intros A f v. clear Ho Hnd. induction order as [|x l IH] using rev_ind; [done|].
    rewrite foldl_snoc. destruct (decide (v = x)) as [->|Hne].
    - rewrite lookup_insert, decide_True by set_solver. done.
    - rewrite lookup_insert_ne, IH by done. destruct (decide (v ∈ l)), (decide (v ∈ l ++ [x])); set_solver. }
  assert (∀ v, v ∈ order ↔ vtx L v) as Hv by (intros v; rewrite Ho; apply (vs_vtx L HL)).
  split; unfold ds_init; cbn [ds_dom ds_scat ds_dd ds_cnt]; [|intros v; rewrite (Hf _ (λ _, 0))|set_solver..].
  - split; [|split]; intros v; rewrite (Hf _ (λ v, if bool_decide (v ∈ T) then r + 1 else r)).
    + rewrite <- Hv. destruct (decide (v ∈ order)); split; intros HH; [done|by eexists|by destruct HH|done].
    + intros k. destruct (decide (v ∈ order)); [|done]. intros [= <-]. case_bool_decide; [lia|]. intros [?|[_ ?]]; [lia|done].
    + intros k. destruct (decide (v ∈ order)); [|done]. intros [= <-]. case_bool_decide; [done|lia].
  - rewrite <- Hv. destruct (decide (v ∈ order)); split; intros HH; [done|by eexists|by destruct HH|done].
Qed.

Lemma ds_loop_spec order : order ≡ₚ vertices L →
  ∃ st, ds_loop W T r cutoff order = Ok st ∧ ds_inv order st.
Proof.
  intros Ho. unfold ds_loop. apply (fold_res_inv (ds_step W T r cutoff) ds_inv); [by apply ds_init_inv|].
  intros l1 v l2 st Heq Hinv. apply ds_step_inv; [|done]. apply (vs_vtx L HL). rewrite <- Ho, Heq. set_solver.
Qed.

End loop.
End with_wf.
