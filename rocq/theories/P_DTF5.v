(** The dominating-set algorithm on DTFGraph. *)
From Verif Require Import Base Spec M_Graph M_Iterators M_EditGraph M_Operations M_Algorithms M_OrdGraph M_Domset M_DTF
  S_Graph P_EditGraph P_EditGraph2 P_Graph P_Iterators P_DTF P_DTF2 P_DTF3 P_DTF4.

Section with_iter.
Context `{HashIter}.
Context (G : graph) (Hwf : graph_wf G) (g : dtfgraph) (Hinv : aug_inv G g).
Let Hg := ai_wf G g Hinv.

Lemma df_order_spec : ∃ order, df_order g = Ok order ∧ order ≡ₚ df_vertices g.
Proof.
  unfold df_order. pose proof (ai_depth G g Hinv) as [Hd _].
  assert (∀ vs, (∀ v, v ∈ vs → dvx g v) → ∃ ks : list (nat * N),
    mapM (λ u, i ← df_in_degree g u; d ← df_degree g u; Ok (i * df_num_vertices g + d, u)) vs = Ok ks ∧ ks.*2 = vs) as HH.
  { induction vs as [|v vs IH]; intros Hv; [by exists []|].
    destruct IH as (ks & Hks & Hk2); [set_solver|].
    destruct (in_degree_spec g v Hg) as (l & _ & Hi); [apply Hv; left|done|].
    destruct (out_degree_spec g v Hg) as (E & _ & Ho); [apply Hv; left|done|].
    cbn. rewrite Hi. cbn [mbind res_bind]. rewrite (degree_spec g v _ _ Hi Ho).
    cbn [mbind res_bind]. rewrite Hks. cbn [mbind res_bind]. eexists. split; [done|]. cbn. by rewrite Hk2. }
  destruct (HH (df_vertices g)) as (ks & Hks & Hk2); [intros v; by rewrite df_vertices_spec|]. rewrite Hks. cbn [mbind res_bind].
  eexists. split; [done|]. rewrite <- Hk2. apply fmap_Permutation, merge_sort_Permutation.
Qed.

Lemma df_weighted_spec v r : vtx G v → r ≤ df_depth g →
  ∃ ps, df_weighted g v r = Ok ps ∧ ∀ u k, (u, k) ∈ ps → vtx G u ∧ 1 ≤ k ∧ within (adj G) k u v.
Proof.
  intros Hv Hr. unfold df_weighted. apply (ai_vtx G g Hinv) in Hv.
  assert (∀ ks, (∀ k, k ∈ ks → 1 ≤ k ≤ df_depth g) → ∃ ls,
    mapM (M:=res) (λ r, l ← df_in_at g v r; Ok ((λ u, (u, r)) <$> (l : list N))) ks = Ok ls ∧
    ∀ u k, (u, k) ∈ concat ls → vtx G u ∧ 1 ≤ k ∧ within (adj G) k u v) as HH.
  { induction ks as [|k ks IH]; intros Hk; [exists []; cbn; set_solver|].
    destruct IH as (ls & Hls & HI); [set_solver|]. destruct k as [|k]; [specialize (Hk 0); set_solver by lia|].
    destruct (in_at_spec g v k Hg Hv) as (l & Hl & _ & HL); [specialize (Hk (S k)); set_solver by lia|].
    exists (((λ u, (u, S k)) <$> l) :: ls). cbn. rewrite Hl. cbn [mbind res_bind]. rewrite Hls. cbn [mbind res_bind].
    split; [done|]. intros u j. rewrite elem_of_app. intros [(w & [= -> ->] & Hw%HL)%elem_of_list_fmap|?]; [|auto].
    split_and!; [apply (ai_vtx G g Hinv); by eapply arc_tail|lia|by apply (ai_within G g Hinv)]. }
  destruct (HH (seq 1 r)) as (ls & Hls & HI). { intros k Hk%elem_of_seq. lia. }
  rewrite Hls. cbn [mbind res_bind]. eauto.
Qed.

Section loop.
Context (r cutoff : nat) (Hr : r ≤ df_depth g).

Definition fd_ok (D : gset N) (dd : gmap N nat) : Prop :=
  (∀ v, is_Some (dd !! v) ↔ vtx G v) ∧
  (∀ v k, dd !! v = Some k → k ≤ r → ∃ x, x ∈ D ∧ within (adj G) k x v).
Definition fd_le (dd' dd : gmap N nat) : Prop := ∀ v k, dd !! v = Some k → ∃ k', dd' !! v = Some k' ∧ k' ≤ k.

Lemma fd_le_refl dd : fd_le dd dd.
Proof. intros v k ?. eauto. Qed.
Lemma fd_le_trans a b c : fd_le a b → fd_le b c → fd_le a c.
Proof. intros H1 H2 v k Hk. apply H2 in Hk as (k1 & Hk1 & ?). apply H1 in Hk1 as (k2 & ? & ?). exists k2. split; [done|lia]. Qed.
Lemma fd_ok_mono D D' dd : D ⊆ D' → fd_ok D dd → fd_ok D' dd.
Proof.
  intros HD (H1 & H2). split; [done|]. intros v k Hk Hc.
  destruct (H2 v k Hk Hc) as (x & Hx & ?). exists x. split; [by apply HD|done].
Qed.
Lemma fd_insert_ok D dd v k d : fd_ok D dd → dd !! v = Some d → k ≤ d →
  (k ≤ r → ∃ x, x ∈ D ∧ within (adj G) k x v) →
  fd_ok D (<[v := k]> dd) ∧ fd_le (<[v := k]> dd) dd.
Proof.
  intros (H1 & H2) Hd Hk Hx. split; [split|].
  - intros u. rewrite <- H1. destruct (decide (u = v)) as [->|Hne]; [rewrite lookup_insert, Hd; by split; intros _; eexists|].
    by rewrite lookup_insert_ne.
  - intros u j. destruct (decide (u = v)) as [->|Hne]; [rewrite lookup_insert; intros [= <-]; exact Hx|].
    rewrite lookup_insert_ne by done. apply H2.
  - intros u j Hj. destruct (decide (u = v)) as [->|Hne].
    + rewrite lookup_insert. exists k. split; [done|]. simplify_eq. lia.
    + rewrite lookup_insert_ne by done. eauto.
Qed.
Lemma fd_relax_ok D dd v k : fd_ok D dd → vtx G v →
  (k ≤ r → ∃ x, x ∈ D ∧ within (adj G) k x v) →
  ∃ dd', ds_relax dd v k = Ok dd' ∧ fd_ok D dd' ∧ fd_le dd' dd.
Proof.
  intros Hok Hv Hx. pose proof Hok as (H1 & H2). destruct (proj2 (H1 v) Hv) as [d Hd].
  unfold ds_relax. rewrite Hd. cbn [unwrap mbind res_bind]. eexists. split; [done|].
  apply (fd_insert_ok D dd v (min d k) d Hok Hd); [lia|].
  intros Hc. destruct (Nat.min_spec d k) as [[? E]|[? E]]; rewrite E in *; [by apply H2|by apply Hx].
Qed.

Record fd_inv (pre : list N) (st : dd_state) : Prop := {
  fi_dd : fd_ok (dd_dom st) (dd_dist st);
  fi_cnt : ∀ v, is_Some (dd_cnt st !! v) ↔ vtx G v;
  fi_dom : ∀ v, v ∈ dd_dom st → vtx G v;
  fi_pre : ∀ v, v ∈ pre → ∃ k, dd_dist st !! v = Some k ∧ k ≤ r;
}.

Lemma fpre_le (pre : list N) (dd dd' : gmap N nat) : fd_le dd' dd → (∀ v, v ∈ pre → ∃ k, dd !! v = Some k ∧ k ≤ r) →
  ∀ v, v ∈ pre → ∃ k, dd' !! v = Some k ∧ k ≤ r.
Proof. intros Hle HH v Hv. destruct (HH v Hv) as (k & Hk & ?). destruct (Hle v k Hk) as (k' & ? & ?). exists k'. split; [done|lia]. Qed.

Lemma dd_update_inv pre x st u k : vtx G u → within (adj G) k u x → x ∈ dd_dom st → fd_inv pre st →
  ∃ st', dd_update g r cutoff st (u, k) = Ok st' ∧ fd_inv pre st' ∧ x ∈ dd_dom st'.
Proof.
  intros Hu Hk Hx [Hdd Hcnt Hdom Hpre].
  unfold dd_update. destruct (proj2 (Hcnt u) Hu) as [c Hc]. rewrite Hc. cbn [unwrap mbind res_bind].
  destruct (fd_relax_ok (dd_dom st) (dd_dist st) u k Hdd Hu) as (dd1 & -> & Hdd1 & Hle1).
  { intros _. exists x. split; [done|]. by apply (W_sym G Hwf). }
  cbn [mbind res_bind dd_dom dd_dist dd_cnt].
  assert (∀ v, is_Some (<[u := S c]> (dd_cnt st) !! v) ↔ vtx G v) as Hcnt'.
  { intros v. rewrite <- Hcnt. destruct (decide (v = u)) as [->|]; [rewrite lookup_insert, Hc; by split; intros _; eexists|].
    by rewrite lookup_insert_ne. }
  destruct ((cutoff <? S c) && negb (bool_decide (u ∈ dd_dom st))) eqn:E.
  - destruct (df_weighted_spec u r Hu Hr) as (ps & -> & Hps). cbn [mbind res_bind].
    assert (fd_ok ({[u]} ∪ dd_dom st) dd1) as Hdd1' by (eapply fd_ok_mono; [|done]; set_solver).
    destruct (proj2 (proj1 Hdd1' u) Hu) as [d Hd].
    destruct (fd_insert_ok ({[u]} ∪ dd_dom st) dd1 u 0 d Hdd1' Hd) as [Hdd2 Hle2]; [lia| |].
    { intros _. exists u. split; [set_solver|]. by apply within_0. }
    destruct (fold_res_inv' (λ dd (q : N * nat), ds_relax dd q.1 q.2) (λ dd', fd_ok ({[u]} ∪ dd_dom st) dd' ∧ fd_le dd' (<[u:=0]> dd1)) ps (<[u:=0]> dd1))
      as (dd3 & -> & Hdd3 & Hle3).
    { split; [done|apply fd_le_refl]. }
    { intros [y j] dd2 (Hy & _ & Hw)%Hps [H1 H2]. cbn [fst snd].
      destruct (fd_relax_ok ({[u]} ∪ dd_dom st) dd2 y j H1 Hy) as (dd4 & Hok & H3 & H4).
      { intros _. exists u. split; [set_solver|]. by apply (W_sym G Hwf). }
      exists dd4. split; [done|]. split; [done|]. by eapply fd_le_trans. }
    cbn [mbind res_bind]. eexists. split; [done|]. split; [|cbn; set_solver].
    split; cbn [dd_dom dd_dist dd_cnt]; [done|done| |].
    + intros v [->%elem_of_singleton|?]%elem_of_union; auto.
    + eapply fpre_le; [|done]. eapply fd_le_trans; [done|]. by eapply fd_le_trans.
  - eexists. split; [done|]. split; [|done]. split; cbn [dd_dom dd_dist dd_cnt]; auto. by eapply fpre_le.
Qed.

Lemma dd_step_inv pre st v : vtx G v → fd_inv pre st →
  ∃ st', dd_step g r cutoff st v = Ok st' ∧ fd_inv (pre ++ [v]) st'.
Proof.
  intros Hv [Hdd Hcnt Hdom Hpre]. unfold dd_step.
  destruct (df_weighted_spec v r Hv Hr) as (ps & -> & Hps). cbn [mbind res_bind].
  edestruct (fold_res_inv' (λ dd (p : N * nat), du ← unwrap (dd !! p.1); ds_relax dd v (p.2 + du))
    (λ dd', fd_ok (dd_dom st) dd' ∧ fd_le dd' (dd_dist st)) ps (dd_dist st)) as (dd & -> & Hdd' & Hle).
  { split; [done|apply fd_le_refl]. }
  { intros [u k] dd1 (Hu & Hk1 & Hw)%Hps [H1 H2]. cbn [fst snd].
    destruct (proj2 (proj1 H1 u) Hu) as [du Hdu]. rewrite Hdu. cbn [unwrap mbind res_bind].
    destruct (fd_relax_ok (dd_dom st) dd1 v (k + du) H1 Hv) as (dd2 & Hok & H3 & H4).
    { intros Hc. destruct H1 as (_ & Hd2). destruct (Hd2 u du Hdu) as (x & Hx & Hxu); [lia|].
      exists x. split; [done|]. rewrite Nat.add_comm. by eapply within_trans. }
    exists dd2. split; [done|]. split; [done|]. by eapply fd_le_trans. }
  cbn [mbind res_bind]. destruct (proj2 (proj1 Hdd' v) Hv) as [dv Hdv]. rewrite Hdv. cbn [unwrap mbind res_bind].
  destruct (Nat.leb_spec dv r) as [Hlt|Hgt].
  - eexists. split; [done|]. split; cbn [dd_dom dd_dist dd_cnt]; auto.
    intros x [Hx|Hx]%elem_of_app; [by eapply (fpre_le pre _ _ Hle)|]. apply elem_of_list_singleton in Hx as ->. eauto.
  - assert (fd_ok ({[v]} ∪ dd_dom st) dd) as Hdd1 by (eapply fd_ok_mono; [|done]; set_solver).
    destruct (fd_insert_ok ({[v]} ∪ dd_dom st) dd v 0 dv Hdd1 Hdv) as [Hdd2 Hle2]; [lia| |].
    { intros _. exists v. split; [set_solver|]. by apply within_0. }
    edestruct (fold_res_inv' (dd_update g r cutoff) (λ st', fd_inv (pre ++ [v]) st' ∧ v ∈ dd_dom st') ps)
      as (st' & -> & ? & ?); [| |eauto].
    + split; [|cbn; set_solver]. split; cbn [dd_dom dd_dist dd_cnt]; auto.
      * intros x [->%elem_of_singleton|?]%elem_of_union; auto.
      * intros x [Hx|Hx]%elem_of_app.
        -- eapply (fpre_le pre); [|done|done]. by eapply fd_le_trans.
        -- apply elem_of_list_singleton in Hx as ->. exists 0. rewrite lookup_insert. split; [done|lia].
    + intros [u k] st1 (Hu & _ & Hw)%Hps [H1 H2]. by eapply dd_update_inv.
Qed.

Lemma dd_loop_spec order : order ≡ₚ df_vertices g →
  ∃ st, fold_res (dd_step g r cutoff) order
     (DdState ∅ (foldl (λ m v, <[v := r + 1]> m) ∅ order) (foldl (λ m v, <[v := 0]> m) ∅ order)) = Ok st ∧ fd_inv order st.
Proof.
  intros Ho. assert (∀ v, v ∈ order ↔ vtx G v) as Hv.
  { intros v. rewrite Ho, df_vertices_spec. apply (ai_vtx G g Hinv). }
  apply (fold_res_inv (dd_step g r cutoff) fd_inv).
  - split; cbn [dd_dom dd_dist dd_cnt]; [split|..].
    + intros v. rewrite foldl_weights, lookup_empty, <- Hv. destruct (decide (v ∈ order)); split; intros HH; [done|by eexists|by destruct HH|done].
    + intros v k. rewrite foldl_weights, lookup_empty. destruct (decide (v ∈ order)); [|done]. intros [= <-]. lia.
    + intros v. rewrite foldl_weights, lookup_empty, <- Hv. destruct (decide (v ∈ order)); split; intros HH; [done|by eexists|by destruct HH|done].
    + set_solver.
    + set_solver.
  - intros l1 v l2 st Heq HI. apply dd_step_inv; [|done]. apply Hv. rewrite Heq. set_solver.
Qed.
End loop.
End with_iter.

Lemma df_domset_spec `{HashIter} G g r : graph_wf G → aug_inv G g → (N.of_nat (2 * r) * N.of_nat (2 * r) < u32_mod)%N →
  ∃ (D : gset N) g', df_domset g r = Ok (D, g') ∧ df_augment g r 2 = Ok g' ∧
    (∀ v, v ∈ D → vtx G v) ∧ ∀ v, vtx G v → ∃ x, x ∈ D ∧ within (adj G) r x v.
Proof.
  intros Hwf Hinv Hr. unfold df_domset.
  destruct (augment_spec G g r 2 Hwf Hinv) as (g' & -> & Hinv' & Hd & _). cbn [mbind res_bind].
  rewrite (proj2 (N.ltb_lt _ _) Hr). cbn [assert_res mbind res_bind].
  destruct (df_order_spec G Hwf g' Hinv') as (order & -> & Ho). cbn [mbind res_bind].
  destruct (dd_loop_spec G Hwf g' Hinv' r (2 * r * (2 * r))) with (order := order) as (st & -> & [Hdd Hcnt Hdom Hpre]); [lia|done|].
  cbn [mbind res_bind]. exists (dd_dom st), g'. split_and!; [done|done|done|].
  intros v Hv. destruct (Hpre v) as (k & Hk & Hle).
  { rewrite Ho, df_vertices_spec. by apply (ai_vtx G g' Hinv'). }
  destruct Hdd as [_ H2]. destruct (H2 v k Hk Hle) as (x & Hx & Hw). exists x. split; [done|]. eapply within_mono; [|exact Hw]. done.
Qed.
