(** Reachable states of DTFGraph. *)
From Verif Require Import Base Spec M_Graph M_Iterators M_EditGraph M_Operations M_Algorithms M_OrdGraph M_Domset M_DTF
  S_Graph S_DTF P_EditGraph P_EditGraph2 P_Graph P_Iterators P_Cliques P_DTF P_DTF2 P_DTF3 P_DTF4 P_DTF5.

Lemma harc_arc g w u v : harc g w u v ↔ ∃ i, w = S i ∧ arc g i u v.
Proof.
  unfold harc. destruct w as [|i].
  - split; [|by intros (i & ? & _)]. unfold df_has_arc_at, dn_has_in_at. destruct (df_nodes g !! v); done.
  - rewrite df_has_arc_at_spec. split; [eauto|]. by intros (j & [= ->] & ?).
Qed.
Lemma harc_S g i u v : harc g (S i) u v ↔ arc g i u v.
Proof. apply df_has_arc_at_spec. Qed.

Lemma add_arc_ok_wf g u v d g' : dtf_wf g → df_add_arc g u v d = Ok g' → dtf_wf g'.
Proof.
  intros Hg Hok. destruct d as [|i]; [done|].
  destruct (decide (i < length (df_ms (df_reserve g (S i))))) as [Hlt|Hge].
  { destruct (add_arc_spec g u v i Hg Hlt) as (g1 & Hok1 & ? & _). congruence. }
  exfalso. pose proof (reserve_wf g (S i) Hg) as Hg0. unfold df_add_arc in Hok. set (g0 := df_reserve g (S i)) in *.
  unfold sub_checked in Hok. cbn [Nat.leb mbind res_bind] in Hok. rewrite Nat.sub_succ, Nat.sub_0_r in Hok.
  apply bind_ok in Hok as (X & HX%unwrap_ok & Hok).
  case_bool_decide as Hu; cbn [negb] in Hok.
  - assert (arc g0 i u v) as Ha.
    { destruct (df_nodes g0 !! v) as [n|] eqn:E; [by exists n, X|]. cbn in HX. apply lookup_replicate in HX as [-> _]. set_solver. }
    apply (dw_ms_len g0 Hg0) in Ha. done.
  - apply bind_ok in Hok as (k & _ & Hok). apply bind_ok in Hok as (k' & _ & Hok). apply bind_ok in Hok as (m & Hm%unwrap_ok & _).
    apply lookup_lt_Some in Hm. done.
Qed.

Section with_iter.
Context `{HashIter}.

Lemma fold_ok_wf {A} (f : dtfgraph → A → res dtfgraph) l g g' :
  (∀ a g g', dtf_wf g → f g a = Ok g' → dtf_wf g') → dtf_wf g → fold_res f l g = Ok g' → dtf_wf g'.
Proof.
  intros Hf. revert g. induction l as [|a l IH]; intros g Hg; cbn; [by intros [= <-]|].
  intros (g1 & H1 & H2)%bind_ok. eapply IH; [|exact H2]. by eapply Hf.
Qed.

Lemma augment_step_ok_wf od g g' : dtf_wf g → df_augment_step od g = Ok g' → dtf_wf g'.
Proof.
  intros Hg. unfold df_augment_step. intros ([T h] & _ & HH)%bind_ok. apply bind_ok in HH as ([g1 h1] & H1 & HH).
  apply bind_ok in HH as (fd & _ & HH). apply bind_ok in HH as (es & _ & HH). cbn [fst snd] in *.
  revert HH. apply fold_ok_wf; [intros a g2 g3 Hg2 Hok2; eapply add_arc_ok_wf; [exact Hg2|exact Hok2]|].
  assert (∀ l g h g1 h1, dtf_wf g → fold_res (λ s a, h ← df_add_arc s.1 a.1 a.2 (df_depth s.1);
      r ← eg_remove_edge s.2 a.1 a.2; Ok (h, r.1)) l (g, h) = Ok (g1, h1) → dtf_wf g1) as HL.
  { clear. induction l as [|a l IH]; intros g h g1 h1 Hg; cbn [fold_res]; [by intros [= <- <-]|].
    intros ([g2 h2] & H2 & H3)%bind_ok. apply bind_ok in H2 as (g3 & H2 & H4). apply bind_ok in H4 as (r & _ & [= <- <-]).
    eapply IH; [|exact H3]. by eapply add_arc_ok_wf. }
  eapply HL; [|exact H1]. by apply reserve_wf.
Qed.
Lemma augment_ok_wf g d f g' : dtf_wf g → df_augment g d f = Ok g' → dtf_wf g'.
Proof.
  unfold df_augment. generalize (S d) as fuel. intros fuel. revert g. induction fuel as [|fuel IH]; intros g Hg; [done|]. cbn [df_augment_loop].
  destruct (df_depth g <? d); [|by intros [= <-]]. intros (g1 & H1 & H2)%bind_ok. eapply IH; [|exact H2]. by eapply augment_step_ok_wf.
Qed.
Lemma domset_ok_augment g r D g' : df_domset g r = Ok (D, g') → df_augment g r 2 = Ok g'.
Proof.
  unfold df_domset. intros (g1 & H1 & HH)%bind_ok. apply bind_ok in HH as (_ & _ & HH). apply bind_ok in HH as (o & _ & HH).
  apply bind_ok in HH as (st & _ & [= _ <-]). done.
Qed.

Lemma any_wf g : dtf_any g → dtf_wf g.
Proof.
  induction 1 as [G g HG Hl Hg|G d g HG Hl Hg|g es g' _ _ Hg|g u _ IH|g u v d g' _ IH Hok|g d _ IH|g d f g' _ IH Hok|g r D g' _ IH Hok].
  - destruct (orient_spec G HG Hl) as (g' & ? & ? & ? & ? & Hg' & _ & ? & _). congruence.
  - unfold df_orient_deep in Hg. destruct (orient_spec G HG Hl) as (g' & ? & ? & ? & ? & Hg' & _ & ? & _). rewrite Hg' in Hg.
    cbn [mbind res_bind] in Hg. destruct (d <=? 1); [congruence|]. apply bind_ok in Hg as (g1 & _ & Hg). apply bind_ok in Hg as (u & _ & Hg).
    apply bind_ok in Hg as (r & _ & Hg). apply bind_ok in Hg as (es & _ & Hg).
    destruct (edge_subgraph_spec r es) as (h & Hh & ? & _). congruence.
  - destruct (edge_subgraph_spec g es) as (h & Hh & ? & _). congruence.
  - by apply add_vertex_wf.
  - by eapply add_arc_ok_wf.
  - by apply reserve_wf.
  - by eapply augment_ok_wf.
  - eapply augment_ok_wf; [done|]. by eapply domset_ok_augment.
Qed.

Lemma reach_layer_inv G g : graph_wf G → loopless G → dtf_reach_layer G g →
  aug_inv G g ∧ ∃ g0, df_orient G = Ok g0 ∧ ∀ u v, arc g 0 u v ↔ arc g0 0 u v.
Proof.
  intros HG Hl. induction 1 as [g Hg|g d f g' _ [IH (g0 & Hg0 & Ha)] Hok|g r D g' _ [IH (g0 & Hg0 & Ha)] Hok|g k _ [IH (g0 & Hg0 & Ha)] Hk].
  - destruct (orient_spec G HG Hl) as (g' & ? & ? & ? & ? & Hg' & Hdeg & _). assert (g' = g) as -> by congruence.
    destruct (orient_inv _ _ _ _ _ _ HG Hg Hdeg Hl) as (? & _). split; [done|]. exists g. done.
  - destruct (augment_spec G g d f HG IH) as (g1 & Hok1 & Hinv & Hd & H1 & H2 & _). assert (g1 = g') as -> by congruence.
    split; [done|]. exists g0. split; [done|]. intros u v. rewrite <- Ha. split; [|apply H1]. intros [?|[? _]]%H2; [done|]. pose proof (ai_depth G g IH). lia.
  - apply domset_ok_augment in Hok.
    destruct (augment_spec G g r 2 HG IH) as (g1 & Hok1 & Hinv & Hd & H1 & H2 & _). assert (g1 = g') as -> by congruence.
    split; [done|]. exists g0. split; [done|]. intros u v. rewrite <- Ha. split; [|apply H1]. intros [?|[? _]]%H2; [done|]. pose proof (ai_depth G g IH). lia.
  - unfold df_layer. split.
    + destruct IH as [H1 H2 H3 H4 H5 H6]. split.
      * by apply reserve_wf.
      * rewrite reserve_depth, reserve_ms. destruct (Nat.ltb_spec (df_depth g) k); [rewrite app_length; cbn|]; lia.
      * intros i j u v. rewrite !arc_reserve. apply H3.
      * intros i u. rewrite arc_reserve. apply H4.
      * intros i u v. rewrite arc_reserve. apply H5.
      * intros v. rewrite dvx_reserve. apply H6.
    + exists g0. split; [done|]. intros u v. by rewrite arc_reserve.
Qed.
Lemma reach_reach_layer G g : dtf_reach G g → dtf_reach_layer G g.
Proof. induction 1; by econstructor. Qed.

Lemma reach_closed G g : graph_wf G → loopless G → dtf_reach G g → aug_inv G g ∧ below g ∧ tclosed g.
Proof.
  intros HG Hl. induction 1 as [g Hg|g d f g' _ (IH & Hb & Ht) Hok|g r D g' _ (IH & Hb & Ht) Hok].
  - destruct (orient_spec G HG Hl) as (g' & ? & ? & ? & ? & Hg' & Hdeg & _). assert (g' = g) as -> by congruence.
    destruct (orient_inv _ _ _ _ _ _ HG Hg Hdeg Hl) as (? & _ & ? & ? & _). done.
  - destruct (augment_spec G g d f HG IH) as (g1 & Hok1 & Hinv & Hd & H1 & H2 & H3 & H4). assert (g1 = g') as -> by congruence. auto.
  - apply domset_ok_augment in Hok.
    destruct (augment_spec G g r 2 HG IH) as (g1 & Hok1 & Hinv & Hd & H1 & H2 & H3 & H4). assert (g1 = g') as -> by congruence. auto.
Qed.
End with_iter.
