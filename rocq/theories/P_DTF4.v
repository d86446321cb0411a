(** The augmentation loop, transitive closure and small distances of DTFGraph. *)
From Verif Require Import Base Spec M_Graph M_Iterators M_EditGraph M_Operations M_Algorithms M_OrdGraph M_DTF
  S_Graph P_EditGraph P_EditGraph2 P_Graph P_Iterators P_Adds P_Operations P_OrdGraph P_Degeneracy P_DTF P_DTF2 P_DTF3.

(** All weights are at most the depth. *)
Definition below (g : dtfgraph) : Prop := ∀ i x y, arc g i x y → i < df_depth g.
(** Two consecutive arcs whose weights add up to at most the depth are bridged by an arc. *)
Definition tclosed (g : dtfgraph) : Prop := ∀ i j x y z,
  i + j + 2 ≤ df_depth g → arc g i x y → arc g j y z → x ≠ z → ∃ k, k ≤ i + j + 1 ∧ arc g k x z.

Section with_iter.
Context `{HashIter}.

Lemma augment_loop_spec G od fuel g depth : graph_wf G → od_ok od → aug_inv G g → depth - df_depth g < fuel →
  ∃ g', df_augment_loop od fuel g depth = Ok g' ∧ aug_inv G g' ∧ df_depth g' = max (df_depth g) depth ∧
    (∀ i x y, arc g i x y → arc g' i x y) ∧
    (∀ i x y, arc g' i x y → arc g i x y ∨ (df_depth g ≤ i < df_depth g' ∧ ¬ ∃ j, arc g j x y)) ∧
    (below g → below g') ∧ (below g → tclosed g → tclosed g').
Proof.
  intros Hwf Hod. revert g. induction fuel as [|fuel IH]; intros g Hinv Hf; [lia|]. cbn [df_augment_loop].
  destruct (Nat.ltb_spec (df_depth g) depth) as [Hlt|Hge].
  2:{ exists g. split_and!; [done|done|lia|auto|auto|auto|auto]. }
  pose proof (ai_depth G g Hinv). destruct (df_depth g) as [|d] eqn:Hd; [lia|].
  destruct (augment_step_spec G Hwf od g d Hod Hinv Hd) as (g1 & -> & Hinv1 & Hd1 & Hs1 & Hn1 & Ht1 & _). cbn [mbind res_bind].
  destruct (IH g1 Hinv1) as (g' & -> & Hinv' & Hd' & Hs' & Hn' & Hb' & Ht'); [lia|].
  assert (below g → below g1) as Hb1.
  { intros Hb i x y [Hx%Hb|[-> _]]%Hn1; lia. }
  exists g'. split_and!; [done|done|lia|auto| |auto|].
  - intros i x y [[?|[-> ?]]%Hn1|[? Hne]]%Hn'; [auto| |].
    + right. split; [lia|done].
    + right. split; [lia|]. intros [j Hj]. apply Hne. eauto.
  - intros Hb Ht. apply Ht'; [auto|]. intros i j x y z Hle Hxy Hyz Hne. rewrite Hd1 in Hle.
    apply Hn1 in Hxy as [Hxy|[-> _]]; [|lia]. apply Hn1 in Hyz as [Hyz|[-> _]]; [|lia].
    destruct (decide (i + j = d)) as [Hij|Hij].
    + destruct (Ht1 j i x y z) as (k & Hk); [lia|done|done|done|]. exists k. split; [|done]. apply (Hb1 Hb) in Hk. lia.
    + destruct (Ht i j x y z) as (k & ? & ?); [lia|done|done|done|]. exists k. auto.
Qed.

Lemma oriented_inv G g order : loopless G → dtf_wf g → df_depth g = 1 → length (df_ms g) = 1 → (∀ v, dvx g v ↔ vtx G v) →
  (∀ i u v, arc g i u v ↔ i = 0 ∧ adj G u v ∧ before order u v) → aug_inv G g ∧ below g ∧ tclosed g.
Proof.
  intros Hl Hgwf Hd Hm Hv Ha. assert (below g) as Hb by (intros i x y (-> & _)%Ha; lia).
  split; [|split; [done|]].
  - split; [done|lia| | | |done].
    + intros i j u v (-> & _)%Ha (-> & _)%Ha. done.
    + intros i u (_ & Hu & _)%Ha. by apply (Hl u).
    + intros i u v (-> & Hu & _)%Ha. apply within_S. right. exists u. split; [by apply within_0|done].
  - intros i j x y z Hle. lia.
Qed.
Lemma orient_inv G g lo up order core : graph_wf G → df_orient G = Ok g → degeneracy G = Ok (lo, up, order, core) → loopless G →
  aug_inv G g ∧ df_depth g = 1 ∧ below g ∧ tclosed g ∧ NoDup order ∧
    (∀ i u v, arc g i u v ↔ i = 0 ∧ adj G u v ∧ before order u v).
Proof.
  intros Hwf Hg Hdeg Hl. destruct (orient_spec G Hwf Hl) as (g' & lo' & up' & order' & core' & Hg' & Hdeg' & Hgwf & Hd & Hm & Hnd & Hel & Hv & Ha).
  rewrite Hg in Hg'. injection Hg' as <-. rewrite Hdeg in Hdeg'. injection Hdeg' as <- <- <- <-.
  destruct (oriented_inv G g order Hl Hgwf Hd Hm Hv Ha) as (? & ? & ?). split_and!; assumption.
Qed.

(** [orient_deep]: the result is acyclic and its arcs are edges; an edge survives if the
    augmentation has an arc from the larger to the smaller end. *)
Lemma orient_deep_gen G0 G frat g order es : graph_wf G → loopless G →
  df_orient G0 = Ok g → dtf_wf g → df_depth g = 1 → length (df_ms g) = 1 → NoDup order → (∀ v, v ∈ order ↔ vtx G v) → (∀ v, dvx g v ↔ vtx G v) →
  (∀ i u v, arc g i u v ↔ i = 0 ∧ adj G u v ∧ before order u v) →
  edges G0 = Ok es → (∀ u v, (u, v) ∈ es ↔ (u <= v)%N ∧ adj G u v) →
  ∃ g' order', df_orient_deep G0 frat = Ok g' ∧ dtf_wf g' ∧ df_depth g' = 1 ∧ NoDup order' ∧ (∀ v, dvx g' v ↔ vtx G v) ∧
    (∀ i u v, arc g' i u v → i = 0 ∧ adj G u v ∧ before order' u v) ∧
    ∃ g1, (g0 ← df_orient G0; df_augment_loop (λ h, df_orient (eg_graph h)) (S frat) g0 (if frat <=? 1 then 0 else frat)) = Ok g1 ∧
      (∀ u v, adj G u v → (∃ i, arc g' i u v ∨ arc g' i v u) ↔
        if frat <=? 1 then True else ((u <= v)%N ∧ ∃ i, arc g1 i v u) ∨ ((v <= u)%N ∧ ∃ i, arc g1 i u v)).
Proof.
  intros Hwf Hl Hg Hgwf Hd Hm Hnd Hel Hv Ha Hedg Hes. unfold df_orient_deep.
  rewrite Hg. cbn [mbind res_bind]. destruct (Nat.leb_spec frat 1) as [Hle|Hgt].
  { exists g, order. split_and!; [done..|intros; by apply Ha|]. exists g. split; [|].
    - cbn [df_augment_loop]. rewrite Hd. done.
    - intros u v Huv. split; [done|intros _]. exists 0. rewrite !Ha.
      assert (u ∈ order) as Hu by (apply Hel; by apply (wf_adj_vtx G Hwf u v)).
      assert (v ∈ order) as Hv' by (apply Hel, (wf_adj_vtx G Hwf v u); by apply (wf_adj_sym G Hwf)).
      apply elem_of_list_lookup in Hu as [i Hi], Hv' as [j Hj].
      destruct (Nat.lt_trichotomy i j) as [?|[->|?]].
      + left. split_and!; [done|done|by exists i, j].
      + assert (u = v) as -> by congruence. by destruct (Hl v).
      + right. split_and!; [done|by apply (wf_adj_sym G Hwf)|by exists j, i]. }
  destruct (oriented_inv G g order Hl Hgwf Hd Hm Hv Ha) as (Hinv & _).
  destruct (augment_loop_spec G _ (S frat) g frat Hwf od_orient Hinv) as (g1 & Hg1 & Hinv1 & _); [lia|]. rewrite Hg1. cbn [mbind res_bind].
  destruct (to_undirected_spec g1 (ai_wf _ _ Hinv1)) as (h1 & -> & Hh1 & Hv1 & He1). cbn [mbind res_bind].
  assert (loopless (eg_graph h1)) as Hl1.
  { intros u Hu. apply He1 in Hu as [[_ [i Hu]]|[_ [i Hu]]]; by eapply (ai_noloop _ _ Hinv1). }
  destruct (orient_spec (eg_graph h1) (eg_graph_wf h1 Hh1) Hl1) as (r & lo' & up' & order' & core' & -> & _ & Hrwf & Hrd & _ & Hnd' & Hel' & Hrv & Hra).
  cbn [mbind res_bind]. rewrite Hedg. cbn [mbind res_bind].
  destruct (edge_subgraph_spec r es) as (fd & Hok & Hfd & Hdf & Hfa & Hfv). specialize (Hfv Hrwf).
  assert (∀ u v, adj G u v ↔ (u, v) ∈ es ∨ (v, u) ∈ es) as Hadj.
  { intros u v. rewrite !Hes. split.
    - intros Huv. destruct (N.leb_spec u v); [auto|]. right. split; [lia|by apply (wf_adj_sym G Hwf)].
    - intros [[_ ?]|[_ ?]]; [done|by apply (wf_adj_sym G Hwf)]. }
  exists fd, order'. split_and!; [done|done|done|done| | |].
  - intros v. rewrite <- (ai_vtx G g1 Hinv1), <- Hv1. split.
    + intros Hf. change (vtx (eg_graph h1) v). apply Hrv, Hfv, Hf.
    + intros Hf. apply Hfv, Hrv, Hf.
  - intros i u v (-> & (j & Hj) & He)%Hfa. apply Hra in Hj as (_ & _ & Hb). split_and!; [done|by apply Hadj|done].
  - exists g1. split; [done|]. intros u v Huv.
    rewrite <- He1. split.
    + intros (i & [(_ & (j & Hj) & _)%Hfa|(_ & (j & Hj) & _)%Hfa]); apply Hra in Hj as (_ & Hj & _); [done|by apply ea_sym].
    + intros Hh. assert (u ∈ order') as Hu by (apply Hel'; by eapply (wf_adj_vtx _ (eg_graph_wf h1 Hh1) u v)).
      assert (v ∈ order') as Hv' by (apply Hel'; apply (wf_adj_vtx _ (eg_graph_wf h1 Hh1) v u); by apply ea_sym).
      apply elem_of_list_lookup in Hu as [i Hi], Hv' as [j Hj]. exists 0. rewrite !Hfa.
      destruct (Nat.lt_trichotomy i j) as [?|[->|?]].
      * left. split_and!; [done| |by apply Hadj]. exists 0. apply Hra. split_and!; [done|done|by exists i, j].
      * assert (u = v) as -> by congruence. by destruct (Hl v).
      * right. split_and!; [done| |apply Hadj; by apply (wf_adj_sym G Hwf)]. exists 0. apply Hra. split_and!; [done|by apply ea_sym|by exists j, i].
Qed.
Lemma orient_deep_spec G frat : graph_wf G → loopless G →
  ∃ g order, df_orient_deep G frat = Ok g ∧ dtf_wf g ∧ df_depth g = 1 ∧ NoDup order ∧ (∀ v, dvx g v ↔ vtx G v) ∧
    (∀ i u v, arc g i u v → i = 0 ∧ adj G u v ∧ before order u v) ∧
    ∃ g1, (g0 ← df_orient G; df_augment_loop (λ h, df_orient (eg_graph h)) (S frat) g0 (if frat <=? 1 then 0 else frat)) = Ok g1 ∧
      (∀ u v, adj G u v → (∃ i, arc g i u v ∨ arc g i v u) ↔
        if frat <=? 1 then True else ((u <= v)%N ∧ ∃ i, arc g1 i v u) ∨ ((v <= u)%N ∧ ∃ i, arc g1 i u v)).
Proof.
  intros Hwf Hl. destruct (orient_spec G Hwf Hl) as (g & lo & up & order & core & Hg & _ & Hgwf & Hd & Hm & Hnd & Hel & Hv & Ha).
  destruct (edges_spec G Hwf) as (es & Hedg & _ & Hes & _). by apply (orient_deep_gen G G frat g order es).
Qed.

Lemma od_deep frat : od_ok (λ h, df_orient_deep (eg_graph h) frat).
Proof.
  intros h Hh Hl. destruct (orient_deep_spec (eg_graph h) frat (eg_graph_wf h Hh) Hl) as (g & order & Hok & Hg & Hd & _ & _ & Ha & _).
  exists g. split_and!; [done|done|lia|]. intros u v (_ & ? & _)%Ha. done.
Qed.

Lemma augment_spec G g depth frat : graph_wf G → aug_inv G g →
  ∃ g', df_augment g depth frat = Ok g' ∧ aug_inv G g' ∧ df_depth g' = max (df_depth g) depth ∧
    (∀ i x y, arc g i x y → arc g' i x y) ∧
    (∀ i x y, arc g' i x y → arc g i x y ∨ (df_depth g ≤ i < df_depth g' ∧ ¬ ∃ j, arc g j x y)) ∧
    (below g → below g') ∧ (below g → tclosed g → tclosed g').
Proof. intros Hwf Hinv. apply augment_loop_spec; [done|apply od_deep|done|lia]. Qed.

(** Chains of weight-1 arcs. *)
Fixpoint desc (g : dtfgraph) (k : nat) (x z : N) : Prop :=
  match k with 0 => x = z | S k => ∃ y, arc g 0 x y ∧ desc g k y z end.

Lemma desc_arc g order k x z : tclosed g → NoDup order → (∀ u v, arc g 0 u v → before order u v) →
  desc g (S k) x z → S k ≤ df_depth g → before order x z ∧ ∃ j, j ≤ k ∧ arc g j x z.
Proof.
  intros Ht Hnd Hord. assert (∀ a b c, before order a b → before order b c → before order a c) as Htr.
  { intros a b c (i & j & Hi & Hj & ?) (j' & l & Hj' & Hl & ?). exists i, l. split_and!; [done|done|].
    assert (j = j') as -> by (eapply NoDup_lookup; [exact Hnd|exact Hj|exact Hj']). lia. }
  assert (∀ a, ¬ before order a a) as Hirr.
  { intros a (i & j & Hi & Hj & ?). assert (i = j) by (eapply NoDup_lookup; [exact Hnd|exact Hi|exact Hj]). lia. }
  revert x. induction k as [|k IH]; intros x (y & Hxy & Hyz) Hk.
  - cbn in Hyz. subst. split; [auto|]. eauto.
  - destruct (IH y Hyz) as (Hb & j & Hj & Ha); [lia|]. assert (before order x z) as Hb' by eauto. split; [done|].
    destruct (Ht 0 j x y z) as (l & Hl & Hal); [lia|done|done|intros ->; by eapply Hirr|]. exists l. split; [lia|done].
Qed.

(** ** Weights and distances *)
Lemma arc_depth_spec g u v : dvx g v →
  ∃ o, df_arc_depth g u v = Ok o ∧ match o with
    | Some d => ∃ i, d = S i ∧ arc g i u v ∧ ∀ j, arc g j u v → i ≤ j
    | None => ∀ i, ¬ arc g i u v end.
Proof.
  intros [n Hn]. unfold df_arc_depth, arc. rewrite Hn. cbn [unwrap mbind res_bind]. eexists. split; [done|].
  unfold dn_arc_depth. destruct (list_find (λ X : gset N, u ∈ X) (dn_in n)) as [[i X]|] eqn:E.
  - apply list_find_Some in E as (HX & Hu & Hmin). exists i. split_and!; [lia|by exists n, X|].
    intros j (? & Y & [= <-] & HY & Hu'). destruct (decide (i ≤ j)) as [|Hlt]; [done|]. exfalso. by eapply (Hmin j Y); [..|lia|].
  - intros i (? & X & [= <-] & HX & Hu). apply list_find_None in E. rewrite Forall_forall in E.
    eapply E; [|exact Hu]. by eapply elem_of_list_lookup_2.
Qed.

Lemma foldl_weights (l : list N) (d : nat) (m : gmap N nat) x :
  foldl (λ m v, <[v := d]> m) m l !! x = if decide (x ∈ l) then Some d else m !! x.
Proof.
  revert m. induction l as [|y l IH]; intros m; cbn; [by rewrite decide_False by set_solver|].
  rewrite IH. destruct (decide (x ∈ l)) as [Hx|Hx]; [by rewrite decide_True by set_solver|].
  destruct (decide (x = y)) as [->|Hne]; [rewrite lookup_insert, decide_True by set_solver; done|].
  rewrite lookup_insert_ne by done. by rewrite decide_False by set_solver.
Qed.

Lemma in_weights_spec g v : dtf_wf g → dvx g v → disjoint_layers g →
  ∃ m, df_in_weights g v = Ok m ∧ ∀ x d, m !! x = Some d ↔ ∃ i, d = S i ∧ i < df_depth g ∧ arc g i x v.
Proof.
  intros Hg Hv Hdis. unfold df_in_weights.
  destruct (fold_res_inv (λ (m : gmap N nat) d, l ← df_in_at g v d; Ok (foldl (λ m v, <[v := d]> m) m l))
    (λ l (m : gmap N nat), ∀ x d, m !! x = Some d ↔ ∃ i, d = S i ∧ d ∈ l ∧ arc g i x v) (seq 1 (df_depth g)) ∅) as (m & Hm & HI).
  { intros x d. rewrite lookup_empty. set_solver. }
  { intros l1 d l2 m Heq HI. assert (d ∈ seq 1 (df_depth g)) as Hd by (rewrite Heq; set_solver). apply elem_of_seq in Hd.
    destruct d as [|i]; [lia|]. destruct (in_at_spec g v i Hg Hv) as (l & -> & _ & Hl); [lia|]. cbn [mbind res_bind].
    eexists. split; [done|]. intros x d. rewrite foldl_weights. destruct (decide (x ∈ l)) as [Hx|Hx].
    - apply Hl in Hx. split.
      + intros [= <-]. exists i. split_and!; [done|set_solver|done].
      + intros (j & -> & _ & Ha). by rewrite (Hdis _ _ _ _ Hx Ha).
    - rewrite HI. setoid_rewrite elem_of_app. setoid_rewrite elem_of_list_singleton. split; [naive_solver|].
      intros (j & -> & [?|[= ->]] & Ha); [eauto|]. by apply Hl in Ha. }
  exists m. split; [exact Hm|]. intros x d. rewrite HI. setoid_rewrite elem_of_seq. split; intros (i & -> & ? & ?); exists i; (split; [done|split; [lia|done]]).
Qed.

(** The candidates over which [small_distance] minimises. *)
Definition sd_cand (g : dtfgraph) (u v : N) (d : nat) : Prop :=
  (∃ i, d = S i ∧ (arc g i u v ∨ arc g i v u)) ∨
  (∃ i j x, d = S i + S j ∧ i < df_depth g ∧ j < df_depth g ∧ arc g i x u ∧ arc g j x v).

Definition omin_of (o : option nat) (P : nat → Prop) : Prop :=
  match o with Some d => P d ∧ ∀ k, P k → d ≤ k | None => ∀ k, ¬ P k end.

Lemma omin_of_add o k (P : nat → Prop) : omin_of o P →
  omin_of (Some (match o with Some d => min d k | None => k end)) (λ c, P c ∨ c = k).
Proof.
  destruct o as [d|]; cbn.
  - intros [Hd Hmin]. split; [destruct (Nat.min_spec d k) as [[_ ->]|[_ ->]]; auto|]. intros c [Hc%Hmin| ->]; lia.
  - intros Hn. split; [auto|]. intros c [[]%Hn| ->]. lia.
Qed.
Lemma omin_of_ext o (P Q : nat → Prop) : omin_of o P → (∀ k, P k ↔ Q k) → omin_of o Q.
Proof. destruct o; cbn; intros HP HPQ; setoid_rewrite <- HPQ; done. Qed.

Lemma small_distance_raw g u v : dtf_wf g → disjoint_layers g → dvx g u → dvx g v →
  ∃ o, omin_of o (sd_cand g u v) ∧
    df_small_distance g u v = Ok (match o with Some d => if df_depth g <? d then None else Some d | None => None end).
Proof.
  intros Hg Hdis Hu Hv. unfold df_small_distance.
  destruct (arc_depth_spec g u v Hv) as (o1 & -> & Ho1). destruct (arc_depth_spec g v u Hu) as (o2 & -> & Ho2).
  destruct (in_weights_spec g v Hg Hv Hdis) as (m & Hm & Hmm). cbn [mbind res_bind]. rewrite Hm. cbn [mbind res_bind].
  assert (omin_of o1 (λ c, ∃ i, c = S i ∧ arc g i u v)) as HA.
  { destruct o1 as [d|]; cbn; [|naive_solver]. destruct Ho1 as (i & -> & Hi & Hmin). split; [eauto|]. intros k (j & -> & Hj%Hmin). lia. }
  set (o3 := match o2 with Some d => Some (match o1 with Some d0 => d0 `min` d | None => d end) | None => o1 end).
  assert (omin_of o3 (λ c, ∃ i, c = S i ∧ (arc g i u v ∨ arc g i v u))) as HB.
  { unfold o3. destruct o2 as [d|].
    - destruct Ho2 as (i & -> & Hi & Hmin). pose proof (omin_of_add _ (S i) _ HA) as HH. cbn in HH |- *.
      destruct HH as [H1 H2]. split.
      + destruct H1 as [(j & -> & ?)| ->]; eauto.
      + intros k (j & -> & [?|Hj]); [apply H2; eauto|]. apply Hmin in Hj. etransitivity; [apply H2; by right|]. lia.
    - eapply omin_of_ext; [exact HA|]. intros k. split; [naive_solver|]. intros (i & -> & [?|[]%Ho2]). eauto. }
  clearbody o3. clear Ho1 Ho2 HA o1 o2.
  set (omin := λ (o : option nat) k, Some (match o with Some d => d `min` k | None => k end)).
  assert (∀ (l : list N) d o P, omin_of o P → omin_of (foldl (λ dist x, match m !! x with Some k => omin dist (k + d) | None => dist end) o l)
      (λ c, P c ∨ ∃ x k, x ∈ l ∧ m !! x = Some k ∧ c = k + d)) as Hin.
  { induction l as [|x l IH]; intros d o P HP; cbn [foldl].
    - eapply omin_of_ext; [exact HP|]. set_solver.
    - destruct (m !! x) as [k|] eqn:E.
      + eapply omin_of_ext; [apply IH, omin_of_add, HP|]. intros c. cbn. setoid_rewrite elem_of_cons. split.
        * intros [[?| ->]|(y & k' & ? & ? & ->)]; [auto|right; exists x, k; auto|right; exists y, k'; auto].
        * intros [?|(y & k' & [->|?] & Hk & ->)]; [auto|rewrite E in Hk; injection Hk as ->; auto|right; eauto].
      + eapply omin_of_ext; [apply IH, HP|]. intros c. cbn. setoid_rewrite elem_of_cons. split; [naive_solver|].
        intros [?|(y & k' & [->|?] & Hk & ->)]; [auto|congruence|right; eauto]. }
  match goal with |- context [fold_res ?f ?ll o3] => destruct (fold_res_inv f
    (λ l o, omin_of o (λ c, (∃ i, c = S i ∧ (arc g i u v ∨ arc g i v u)) ∨ ∃ i j x, c = S i + S j ∧ S i ∈ l ∧ j < df_depth g ∧ arc g i x u ∧ arc g j x v)) ll o3) as (o & Ho & HI) end.
  { eapply omin_of_ext; [exact HB|]. set_solver. }
  { intros l1 d l2 o Heq HI. assert (d ∈ seq 1 (df_depth g)) as Hd by (rewrite Heq; set_solver). apply elem_of_seq in Hd.
    destruct d as [|i]; [lia|]. destruct (in_at_spec g u i Hg Hu) as (l & -> & _ & Hl); [lia|]. cbn [mbind res_bind].
    eexists. split; [done|]. eapply omin_of_ext; [apply (Hin l (S i)), HI|]. intros c. cbn beta.
    setoid_rewrite elem_of_app. setoid_rewrite elem_of_list_singleton. split.
    - intros [[?|(i' & j & x & -> & ? & ? & ? & ?)]|(x & k & Hx%Hl & (j & -> & ? & ?)%Hmm & ->)]; [auto| |]; right.
      + exists i', j, x. split_and!; auto.
      + exists i, j, x. split_and!; auto. lia.
    - intros [?|(i' & j & x & -> & [?|[= ->]] & ? & ? & ?)]; [auto|left; right; exists i', j, x; auto|].
      right. exists x, (S j). split_and!; [by apply Hl|apply Hmm; eauto|lia]. }
  rewrite Ho. cbn [mbind res_bind]. exists o. split; [|done].
  eapply omin_of_ext; [exact HI|]. intros c. unfold sd_cand. setoid_rewrite elem_of_seq.
  split; (intros [?|(i & j & x & -> & ? & ? & ? & ?)]; [auto|right; exists i, j, x; split_and!; auto; lia]).
Qed.
End with_iter.
