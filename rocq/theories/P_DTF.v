(** Lemmas about the representation of DTFGraph: arcs, counters, iterators. *)
From Verif Require Import Base Spec M_Graph M_Iterators M_EditGraph M_Operations M_Algorithms M_OrdGraph M_DTF
  S_Graph P_EditGraph P_Graph P_Iterators.

(** [arc g i u v]: the vertex [u] is in layer [i] (weight [i+1]) of the in-arcs of [v]. *)
Definition arc (g : dtfgraph) (i : nat) (u v : N) : Prop :=
  ∃ n X, df_nodes g !! v = Some n ∧ dn_in n !! i = Some X ∧ u ∈ X.
Definition dvx (g : dtfgraph) (v : N) : Prop := is_Some (df_nodes g !! v).

Record dtf_wf (g : dtfgraph) : Prop := {
  dw_len : ∀ v n, df_nodes g !! v = Some n →
    length (dn_ind n) = length (dn_in n) ∧ length (dn_outd n) = length (dn_in n) ∧ df_depth g ≤ length (dn_in n);
  dw_src : ∀ i u v, arc g i u v → ∃ n, df_nodes g !! u = Some n ∧ i < length (dn_in n);
  dw_ind : ∀ v n i X, df_nodes g !! v = Some n → dn_in n !! i = Some X → dn_ind n !! i = Some (size X);
  dw_outd : ∀ u n i k, df_nodes g !! u = Some n → dn_outd n !! i = Some k →
    ∃ X : gset N, (∀ v, v ∈ X ↔ arc g i u v) ∧ k = size X;
  dw_ms : ∀ i k, df_ms g !! i = Some k → ∃ E : gset (N * N), (∀ u v, (u, v) ∈ E ↔ arc g i u v) ∧ k = size E;
  dw_ms_len : ∀ i u v, arc g i u v → i < length (df_ms g);
}.

Lemma arc_head g i u v : arc g i u v → dvx g v.
Proof. intros (n & X & Hn & _). by exists n. Qed.
Lemma arc_tail g i u v : dtf_wf g → arc g i u v → dvx g u.
Proof. intros Hg (n & Hn & _)%(dw_src g Hg). by exists n. Qed.

Lemma df_contains_spec g v : df_contains g v = true ↔ dvx g v.
Proof. unfold df_contains, dvx. destruct (df_nodes g !! v); split; intros HH; [by eexists|done|done|by destruct HH]. Qed.

Lemma dn_has_in_spec n u : dn_has_in n u = true ↔ ∃ i X, dn_in n !! i = Some X ∧ u ∈ X.
Proof.
  unfold dn_has_in. rewrite existsb_exists. split.
  - intros (X & HX%elem_of_list_In & Hu%bool_decide_eq_true). apply elem_of_list_lookup in HX as [i Hi]. eauto.
  - intros (i & X & Hi & Hu). exists X. split; [by eapply elem_of_list_In, elem_of_list_lookup_2|]. by apply bool_decide_eq_true.
Qed.
Lemma df_has_arc_spec g u v : df_has_arc g u v = true ↔ ∃ i, arc g i u v.
Proof.
  unfold df_has_arc, arc. destruct (df_nodes g !! v) as [n|] eqn:E; [rewrite dn_has_in_spec|].
  - split; [intros (i & X & ? & ?); exists i, n, X; done|intros (i & n' & X & [= <-] & ? & ?); eauto].
  - split; [done|]. by intros (? & ? & ? & ? & _).
Qed.
Lemma df_adjacent_spec g u v : df_adjacent g u v = true ↔ ∃ i, arc g i u v ∨ arc g i v u.
Proof.
  unfold df_adjacent. rewrite orb_true_iff, !df_has_arc_spec. split; [intros [[i ?]|[i ?]]; eauto|intros [i [?|?]]; eauto].
Qed.
Lemma df_has_arc_at_spec g u v i : df_has_arc_at g u v (S i) = Ok true ↔ arc g i u v.
Proof.
  unfold df_has_arc_at, arc, dn_has_in_at, sub_checked. cbn [Nat.leb mbind res_bind]. rewrite Nat.sub_succ, Nat.sub_0_r.
  destruct (df_nodes g !! v) as [n|] eqn:E.
  - destruct (dn_in n !! i) as [X|] eqn:EX.
    + split; [intros [= Hu%bool_decide_eq_true]; eauto|intros (? & ? & [= <-] & HX & Hu)].
      rewrite EX in HX. simplify_eq. f_equal. by apply bool_decide_eq_true.
    + split; [done|]. intros (? & ? & [= <-] & HX & _). congruence.
  - split; [done|]. by intros (? & ? & ? & _).
Qed.
Lemma df_has_arc_at_total g u v i : ∃ b, df_has_arc_at g u v (S i) = Ok b.
Proof. unfold df_has_arc_at, dn_has_in_at, sub_checked. cbn [Nat.leb mbind res_bind]. destruct (df_nodes g !! v); eauto. Qed.

(** ** Building *)
Lemma dn_reserve_in n d i X : dn_in (dn_reserve d n) !! i = Some X → X ≠ ∅ → dn_in n !! i = Some X.
Proof.
  cbn. intros [HX|[_ [-> _]%lookup_replicate]]%lookup_app_Some; [done|]. by intros [].
Qed.


Lemma arc_reserve g d i u v : arc (df_reserve g d) i u v ↔ arc g i u v.
Proof.
  unfold arc, df_reserve. destruct (df_depth g <? d); [|done]. cbn [df_nodes]. split.
  - intros (n & X & (m & <- & Hm)%lookup_fmap_Some & HX & Hu). exists m, X. split; [done|]. split; [|done].
    eapply dn_reserve_in; [done|]. set_solver.
  - intros (n & X & Hn & HX & Hu). exists (dn_reserve d n), X. split; [by rewrite lookup_fmap, Hn|]. split; [|done].
    cbn. by apply lookup_app_l_Some.
Qed.
Lemma dvx_reserve g d v : dvx (df_reserve g d) v ↔ dvx g v.
Proof. unfold dvx, df_reserve. destruct (df_depth g <? d); [|done]. cbn [df_nodes]. by rewrite lookup_fmap, fmap_is_Some. Qed.
Lemma reserve_depth g d : df_depth (df_reserve g d) = d.
Proof. unfold df_reserve. by destruct (df_depth g <? d). Qed.
Lemma reserve_ms g d : df_ms (df_reserve g d) = if df_depth g <? d then df_ms g ++ [0] else df_ms g.
Proof. unfold df_reserve. by destruct (df_depth g <? d). Qed.

Lemma reserve_wf g d : dtf_wf g → dtf_wf (df_reserve g d).
Proof.
  intros [H1 H2 H3 H4 H5 H6]. split.
  - intros v n. rewrite reserve_depth. unfold df_reserve. destruct (Nat.ltb_spec (df_depth g) d) as [Hlt|Hge]; cbn [df_nodes].
    + intros (m & <- & Hm)%lookup_fmap_Some. destruct (H1 v m Hm) as (? & ? & ?). cbn.
      rewrite !app_length, !replicate_length. lia.
    + intros (? & ? & ?)%H1. lia.
  - intros i u v Ha. rewrite arc_reserve in Ha. destruct (H2 i u v Ha) as (n & Hn & Hi). unfold df_reserve.
    destruct (df_depth g <? d); cbn [df_nodes]; [|eauto]. exists (dn_reserve d n). rewrite lookup_fmap, Hn. split; [done|].
    cbn. rewrite app_length. lia.
  - intros v n i X. unfold df_reserve. destruct (df_depth g <? d); cbn [df_nodes]; [|apply H3].
    intros (m & <- & Hm)%lookup_fmap_Some. cbn. destruct (H1 v m Hm) as (Hl & _ & _).
    intros [HX|[Hge HX]]%lookup_app_Some.
    + eapply lookup_app_l_Some, H3; done.
    + rewrite lookup_app_r by lia. apply lookup_replicate in HX as [-> Hlt]. rewrite size_empty. apply lookup_replicate. split; [done|lia].
  - intros u n i k. setoid_rewrite arc_reserve. unfold df_reserve. destruct (df_depth g <? d); cbn [df_nodes]; [|apply H4].
    intros (m & <- & Hm)%lookup_fmap_Some. cbn. destruct (H1 u m Hm) as (_ & Hl & _).
    intros [HX|[Hge HX]]%lookup_app_Some; [by eapply H4|]. apply lookup_replicate in HX as [-> _].
    exists ∅. rewrite size_empty. split; [|done]. intros v. split; [set_solver|].
    intros Ha. destruct (H2 i u v Ha) as (n & Hn & Hi). rewrite Hm in Hn. injection Hn as <-. lia.
  - intros i k. setoid_rewrite arc_reserve. rewrite reserve_ms. destruct (df_depth g <? d); [|apply H5].
    intros [HX|[Hge HX]]%lookup_app_Some; [by apply H5|]. exists ∅. rewrite size_empty.
    apply list_lookup_singleton_Some in HX as [? <-]. split; [|done]. intros u v. split; [set_solver|]. intros Ha%H6. lia.
  - intros i u v Ha. rewrite arc_reserve in Ha. apply H6 in Ha. rewrite reserve_ms. destruct (df_depth g <? d); [rewrite app_length|]; lia.
Qed.

Lemma arc_add_vertex g w i u v : arc (df_add_vertex g w) i u v ↔ arc g i u v.
Proof.
  unfold df_add_vertex. destruct (df_nodes g !! w) as [n|] eqn:E; [done|]. unfold arc. cbn [df_nodes]. split.
  - intros (m & X & Hm & HX & Hu). destruct (decide (v = w)) as [->|Hne].
    + rewrite lookup_insert in Hm. injection Hm as <-. cbn in HX. apply lookup_replicate in HX as [-> _]. set_solver.
    + rewrite lookup_insert_ne in Hm by done. eauto.
  - intros (m & X & Hm & HX & Hu). exists m, X. rewrite lookup_insert_ne by congruence. done.
Qed.
Lemma dvx_add_vertex g w v : dvx (df_add_vertex g w) v ↔ v = w ∨ dvx g v.
Proof.
  unfold df_add_vertex, dvx. destruct (df_nodes g !! w) as [n|] eqn:E; cbn [df_nodes].
  - split; [auto|]. intros [->|?]; [by eexists|done].
  - destruct (decide (v = w)) as [->|Hne]; [rewrite lookup_insert; split; [auto|by eexists]|].
    rewrite lookup_insert_ne by done. split; [auto|]. by intros [?|?].
Qed.
Lemma add_vertex_depth g w : df_depth (df_add_vertex g w) = df_depth g.
Proof. unfold df_add_vertex. by destruct (df_nodes g !! w). Qed.
Lemma add_vertex_ms g w : df_ms (df_add_vertex g w) = df_ms g.
Proof. unfold df_add_vertex. by destruct (df_nodes g !! w). Qed.
Lemma add_vertex_wf g w : dtf_wf g → dtf_wf (df_add_vertex g w).
Proof.
  intros Hg. pose proof (arc_add_vertex g w) as Ha. unfold df_add_vertex in *.
  destruct (df_nodes g !! w) as [n|] eqn:E; [done|]. destruct Hg as [H1 H2 H3 H4 H5 H6].
  assert (∀ v m, <[w:=dn_new (df_depth g)]> (df_nodes g) !! v = Some m → (v = w ∧ m = dn_new (df_depth g)) ∨ df_nodes g !! v = Some m) as Hlk.
  { intros v m. rewrite lookup_insert_Some. naive_solver. }
  split; cbn [df_nodes df_depth df_ms].
  - intros v m [[-> ->]|?]%Hlk; [|by eapply H1]. cbn. by rewrite !replicate_length.
  - intros i u v Hb. rewrite Ha in Hb. apply H2 in Hb as (m & Hm & ?). exists m. rewrite lookup_insert_ne by congruence. done.
  - intros v m i X [[-> ->]|?]%Hlk; [|by eapply H3]. cbn. intros [-> ?]%lookup_replicate. rewrite size_empty. by apply lookup_replicate.
  - intros u m i k Hm Hk. setoid_rewrite Ha. apply Hlk in Hm as [[-> ->]|?]; [|by eapply H4].
    cbn in Hk. apply lookup_replicate in Hk as [-> _]. exists ∅. rewrite size_empty. split; [|done].
    intros v. split; [set_solver|]. intros (m & Hm & _)%H2. congruence.
  - intros i k Hk. setoid_rewrite Ha. by apply H5.
  - intros i u v Hb. rewrite Ha in Hb. by eapply H6.
Qed.

Lemma new_wf : dtf_wf df_new.
Proof.
  assert (∀ i u v, ¬ arc df_new i u v) as Ha by (intros i u v (? & ? & ? & _); done).
  split; cbn; [done|by intros ???[]%Ha|done|done| |by intros ???[]%Ha].
  intros i k Hk%list_lookup_singleton_Some. destruct Hk as [_ <-]. exists ∅. split; [|done]. intros u v. split; [set_solver|by intros []%Ha].
Qed.

(** The main lemma: adding an arc of weight [i+1]. *)
Lemma add_arc_spec g u v i : dtf_wf g → i < length (df_ms (df_reserve g (S i))) →
  ∃ g', df_add_arc g u v (S i) = Ok g' ∧ dtf_wf g' ∧ df_depth g' = S i ∧
    length (df_ms g') = length (df_ms (df_reserve g (S i))) ∧
    (∀ j x y, arc g' j x y ↔ arc g j x y ∨ (j = i ∧ x = u ∧ y = v)) ∧
    (∀ x, dvx g' x ↔ dvx g x ∨ x = u ∨ x = v).
Proof.
  intros Hg Hms. set (g0 := df_reserve g (S i)) in *.
  assert (dtf_wf g0) as Hg0 by by apply reserve_wf.
  assert (df_depth g0 = S i) as Hd0 by apply reserve_depth.
  set (g1 := df_add_vertex g0 v). assert (dtf_wf g1) as Hg1 by by apply add_vertex_wf.
  assert (df_depth g1 = S i) as Hd1 by (unfold g1; by rewrite add_vertex_depth).
  assert (df_ms g1 = df_ms g0) as Hm1 by apply add_vertex_ms.
  assert (∃ nv, df_nodes g1 !! v = Some nv ∧ default (dn_new (df_depth g0)) (df_nodes g0 !! v) = nv ∧
     df_nodes g1 = <[v := nv]> (df_nodes g0)) as (nv & Hnv & Hdef & Hn1).
  { unfold g1, df_add_vertex. destruct (df_nodes g0 !! v) as [n|] eqn:E.
    - exists n. split_and!; [done|done|]. by rewrite insert_id.
    - exists (dn_new (df_depth g0)). cbn. rewrite lookup_insert. done. }
  assert (∀ j x y, arc g1 j x y ↔ arc g j x y) as Harc1.
  { intros j x y. unfold g1. rewrite arc_add_vertex. apply arc_reserve. }
  assert (∀ x, dvx g1 x ↔ x = v ∨ dvx g x) as Hvx1.
  { intros x. unfold g1. rewrite dvx_add_vertex. by unfold g0; rewrite dvx_reserve. }
  destruct (dw_len g1 Hg1 v nv Hnv) as (Hl1 & Hl2 & Hl3).
  unfold df_add_arc. fold g0. rewrite Hdef. unfold sub_checked. cbn [Nat.leb mbind res_bind]. rewrite Nat.sub_succ, Nat.sub_0_r.
  destruct (lookup_lt_is_Some_2 (dn_in nv) i) as [X HX]; [lia|]. rewrite HX. cbn [unwrap mbind res_bind].
  destruct (decide (u ∈ X)) as [Hu|Hu].
  { rewrite bool_decide_true by done. cbn [negb].
    exists (Dtf (<[v:=nv]> (df_nodes g0)) (df_depth g0) (df_ms g0)). split; [done|].
    assert (Dtf (<[v:=nv]> (df_nodes g0)) (df_depth g0) (df_ms g0) = g1) as ->.
    { rewrite <- Hn1, <- Hm1, Hd0, <- Hd1. by destruct g1. }
    assert (arc g i u v) as Ha by (apply Harc1; by exists nv, X).
    split_and!; [done|done|by rewrite Hm1| |].
    - intros j x y. rewrite Harc1. split; [auto|]. by intros [?|(-> & -> & ->)].
    - intros x. rewrite Hvx1. apply arc_tail in Ha; [|done]. split; [intros [?|?]; auto|intros [?|[->|?]]; auto]. }
  rewrite bool_decide_false by done. cbn [negb].
  rewrite (dw_ind g1 Hg1 v nv i X Hnv HX). cbn [unwrap mbind res_bind].
  set (nv' := DtfNode (<[i:={[u]} ∪ X]> (dn_in nv)) (<[i:=size X + 1]> (dn_ind nv)) (dn_outd nv)).
  set (g2 := df_add_vertex g1 u). assert (dtf_wf g2) as Hg2 by by apply add_vertex_wf.
  assert (df_depth g2 = S i) as Hd2 by (unfold g2; by rewrite add_vertex_depth).
  assert (df_ms g2 = df_ms g0) as Hm2 by (unfold g2; by rewrite add_vertex_ms).
  assert (∀ j x y, arc g2 j x y ↔ arc g j x y) as Harc2.
  { intros j x y. unfold g2. by rewrite arc_add_vertex. }
  assert (∀ x, dvx g2 x ↔ x = u ∨ x = v ∨ dvx g x) as Hvx2.
  { intros x. unfold g2. by rewrite dvx_add_vertex, Hvx1. }
  assert (df_nodes g2 !! v = Some nv) as Hnv2.
  { unfold g2, df_add_vertex. destruct (df_nodes g1 !! u) eqn:E; [done|]. cbn. rewrite lookup_insert_ne by congruence. done. }
  assert (∃ nu, df_nodes g2 !! u = Some nu ∧
    default (dn_new (df_depth g0)) (<[v:=nv']> (df_nodes g0) !! u) = (if decide (u = v) then nv' else nu) ∧
    ∀ x, x ≠ u → df_nodes g2 !! x = df_nodes g1 !! x) as (nu & Hnu2 & Hdefu & Hoth).
  { unfold g2, df_add_vertex. destruct (decide (u = v)) as [->|Hne].
    - rewrite Hnv. exists nv. rewrite lookup_insert. done.
    - rewrite lookup_insert_ne by done. rewrite Hn1, lookup_insert_ne by done.
      destruct (df_nodes g0 !! u) as [n|] eqn:E.
      + exists n. rewrite Hn1, lookup_insert_ne by done. split_and!; [done|done|]. done.
      + exists (dn_new (df_depth g0)). cbn [df_nodes]. rewrite lookup_insert. split_and!; [by rewrite Hd0, Hd1|done|].
        intros x Hx. by rewrite lookup_insert_ne by done. }
  rewrite Hdefu. set (nu0 := if decide (u = v) then nv' else nu).
  assert (dn_outd nu0 = dn_outd nu) as Houtd.
  { unfold nu0. destruct (decide (u = v)) as [->|]; [|done]. cbn. by simplify_eq. }
  rewrite Houtd. destruct (dw_len g2 Hg2 u nu Hnu2) as (Hk1 & Hk2 & Hk3).
  destruct (lookup_lt_is_Some_2 (dn_outd nu) i) as [k Hk]; [lia|]. rewrite Hk. cbn [unwrap mbind res_bind].
  destruct (lookup_lt_is_Some_2 (df_ms g0) i Hms) as [m Hm]. rewrite Hm. cbn [unwrap mbind res_bind].
  eexists. split; [done|].
  set (g' := Dtf _ _ _).
  assert (∀ x, df_nodes g' !! x = (λ n, DtfNode
      (if decide (x = v) then <[i:={[u]} ∪ X]> (dn_in n) else dn_in n)
      (if decide (x = v) then <[i:=size X + 1]> (dn_ind n) else dn_ind n)
      (if decide (x = u) then <[i:=k + 1]> (dn_outd n) else dn_outd n)) <$> df_nodes g2 !! x) as Hlk.
  { intros x. unfold g'. cbn [df_nodes]. destruct (decide (x = u)) as [->|Hxu].
    - rewrite lookup_insert, Hnu2. cbn. f_equal. unfold nu0. destruct (decide (u = v)) as [->|Huv]; [|done].
      assert (nu = nv) as -> by congruence. done.
    - rewrite lookup_insert_ne by done. destruct (decide (x = v)) as [->|Hxv].
      + rewrite lookup_insert, Hnv2. done.
      + rewrite lookup_insert_ne by done. rewrite Hoth, Hn1, lookup_insert_ne by done.
        destruct (df_nodes g0 !! x) as [[]|]; done. }
  assert (∀ j x y, arc g' j x y ↔ arc g j x y ∨ (j = i ∧ x = u ∧ y = v)) as Harc'.
  { intros j x y. rewrite <- Harc2. unfold arc. rewrite Hlk. split.
    - intros (n & Y & (n0 & Hn0 & ->)%fmap_Some & HY & Hx). cbn in HY. destruct (decide (y = v)) as [->|Hyv]; [|left; by exists n0, Y].
      assert (n0 = nv) as -> by congruence.
      destruct (decide (j = i)) as [->|Hji].
      + rewrite list_lookup_insert in HY by lia. injection HY as <-.
        apply elem_of_union in Hx as [->%elem_of_singleton|Hx]; [auto|]. left. by exists nv, X.
      + rewrite list_lookup_insert_ne in HY by done. left. by exists nv, Y.
    - intros [(n & Y & Hn & HY & Hx)|(-> & -> & ->)].
      + rewrite Hn. cbn. destruct (decide (y = v)) as [->|Hyv]; [|by eexists _, Y].
        assert (n = nv) as -> by congruence. destruct (decide (j = i)) as [->|Hji].
        * assert (Y = X) as -> by congruence. eexists _, ({[u]} ∪ X). split; [done|]. cbn. rewrite list_lookup_insert by lia.
          split; [done|]. set_solver.
        * eexists _, Y. split; [done|]. cbn. by rewrite list_lookup_insert_ne.
      + rewrite Hnv2. eexists _, ({[u]} ∪ X). split; [done|]. cbn. rewrite decide_True by done. rewrite list_lookup_insert by lia.
        split; [done|]. set_solver. }
  assert (¬ arc g i u v) as Hnew.
  { rewrite <- Harc2. intros (n & Y & Hn & HY & Hin). apply Hu. assert (n = nv) as -> by congruence. by assert (Y = X) as -> by congruence. }
  assert (∀ x, dvx g' x ↔ dvx g x ∨ x = u ∨ x = v) as Hvx'.
  { intros x. transitivity (dvx g2 x); [unfold dvx; by rewrite Hlk, fmap_is_Some|]. rewrite Hvx2. tauto. }
  assert (length (df_ms g') = length (df_ms g0)) as Hml by (unfold g'; cbn; by rewrite insert_length).
  split_and!; [|unfold g'; cbn; done|done|done|done].
  split.
  - intros x n. rewrite Hlk. intros (n0 & Hn0 & ->)%fmap_Some. destruct (dw_len g2 Hg2 x n0 Hn0) as (? & ? & ?).
    change (df_depth g') with (df_depth g0). rewrite Hd0. cbn. repeat case_decide; rewrite ?insert_length; lia.
  - intros j x y Ha. rewrite Harc' in Ha. assert (∃ n, df_nodes g2 !! x = Some n ∧ j < length (dn_in n)) as (n & Hn & Hj).
    { destruct Ha as [Ha|(-> & -> & ->)]; [rewrite <- Harc2 in Ha; by apply (dw_src g2 Hg2 j x y)|]. exists nu. split; [done|lia]. }
    rewrite Hlk, Hn. eexists. split; [done|]. cbn. destruct (decide (x = v)); rewrite ?insert_length; lia.
  - intros x n j Y. rewrite Hlk. intros (n0 & Hn0 & ->)%fmap_Some. cbn. destruct (decide (x = v)) as [->|]; [|by apply (dw_ind g2 Hg2 x)].
    assert (n0 = nv) as -> by congruence. destruct (decide (j = i)) as [->|Hji].
    + rewrite !list_lookup_insert by lia. intros [= <-]. f_equal. rewrite size_union, size_singleton by set_solver. lia.
    + rewrite !list_lookup_insert_ne by done. by apply (dw_ind g2 Hg2 v).
  - intros x n j c. rewrite Hlk. intros (n0 & Hn0 & ->)%fmap_Some. cbn. destruct (decide (x = u)) as [->|Hxu].
    + assert (n0 = nu) as -> by congruence. destruct (decide (j = i)) as [->|Hji].
      * rewrite list_lookup_insert by lia. intros [= <-]. destruct (dw_outd g2 Hg2 u nu i k Hnu2 Hk) as (Y & HY & ->).
        assert (v ∉ Y) as HvY by (rewrite HY, Harc2; done).
        exists ({[v]} ∪ Y). rewrite size_union, size_singleton by set_solver. split; [|lia].
        intros y. rewrite elem_of_union, elem_of_singleton, HY, Harc2, Harc'. naive_solver.
      * rewrite list_lookup_insert_ne by done. intros Hc. destruct (dw_outd g2 Hg2 u nu j c Hnu2 Hc) as (Y & HY & ->).
        exists Y. split; [|done]. intros y. rewrite HY, Harc2, Harc'. naive_solver.
    + intros Hc. destruct (dw_outd g2 Hg2 x n0 j c Hn0 Hc) as (Y & HY & ->). exists Y. split; [|done].
      intros y. rewrite HY, Harc2, Harc'. naive_solver.
  - intros j c. unfold g' at 1. cbn [df_ms]. destruct (decide (j = i)) as [->|Hji].
    + rewrite list_lookup_insert by done. intros [= <-]. rewrite <- Hm2 in Hm. destruct (dw_ms g2 Hg2 i m Hm) as (E & HE & ->).
      assert ((u, v) ∉ E) as HvE by (rewrite HE, Harc2; done).
      exists ({[(u, v)]} ∪ E). rewrite size_union, size_singleton by set_solver. split; [|lia].
      intros x y. rewrite elem_of_union, elem_of_singleton, HE, Harc2, Harc'. naive_solver.
    + rewrite list_lookup_insert_ne by done. rewrite <- Hm2. intros Hc. destruct (dw_ms g2 Hg2 j c Hc) as (E & HE & ->).
      exists E. split; [|done]. intros x y. rewrite HE, Harc2, Harc'. naive_solver.
  - intros j x y Ha. rewrite Harc', <- Harc2 in Ha. destruct Ha as [Ha|(-> & -> & ->)]; rewrite Hml; [|done]. apply (dw_ms_len g2 Hg2) in Ha. by rewrite Hm2 in Ha.
Qed.

Lemma add_arc_panic g u v : df_add_arc g u v 0 = Panic.
Proof. done. Qed.
