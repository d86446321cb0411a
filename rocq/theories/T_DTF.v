(** Property theorems C51-C56 and C70-C73: distance-truncated fraternal augmentations. *)
From Verif Require Import Base Spec M_Graph M_Iterators M_EditGraph M_Operations M_Algorithms M_OrdGraph M_Domset M_DTF
  S_Graph S_DTF P_EditGraph P_EditGraph2 P_Graph P_Iterators P_Adds P_DTF P_DTF2 P_DTF3 P_DTF4 P_DTF5 P_DTF6 Examples.

(** The example graph: a triangle with a tail closing a cycle, and its orientation and augmentation
    to depth 3. *)
Definition ex_dtf_edges : list (N * N) := [(0,1);(0,2);(0,3);(0,4);(1,2);(4,5);(5,6);(6,1)]%N.
Definition ex_dtf_graph : editgraph := ex_edit ex_dtf_edges.
Definition ex_dtf_run (es : list (N * N)) (d f : nat) : dtfgraph :=
  match (g ← df_orient (H:=std_iter) (eg_graph (H:=std_iter) (ex_edit es)); df_augment (H:=std_iter) g d f) with Ok g => g | _ => df_new end.

Lemma ex_loopless es : forallb (λ e : N * N, negb (e.1 =? e.2)%N) es = true → loopless (eg_graph (H:=std_iter) (ex_edit es)).
Proof.
  intros Hall u Hu. apply (ex_edit_spec es) in Hu. rewrite forallb_forall in Hall.
  destruct Hu as [Hu|Hu]; apply elem_of_list_In, Hall in Hu; cbn in Hu; by rewrite N.eqb_refl in Hu.
Qed.
Lemma ex_dtf_ok es d f : forallb (λ e : N * N, negb (e.1 =? e.2)%N) es = true →
  graph_wf (eg_graph (H:=std_iter) (ex_edit es)) ∧ loopless (eg_graph (H:=std_iter) (ex_edit es)) ∧
  dtf_reach (H:=std_iter) (eg_graph (H:=std_iter) (ex_edit es)) (ex_dtf_run es d f).
Proof.
  intros Hall. pose proof (proj1 (ex_edit_spec es)) as Hwf. pose proof (ex_loopless es Hall) as Hl. split; [exact Hwf|]. split; [exact Hl|].
  set (G := eg_graph (ex_edit es)) in *. destruct (orient_spec (H:=std_iter) G Hwf Hl) as (g & ? & ? & ? & ? & Hg & Hdeg & _).
  destruct (orient_inv _ _ _ _ _ _ Hwf Hg Hdeg Hl) as (Hinv & _). destruct (augment_spec (H:=std_iter) G g d f Hwf Hinv) as (g' & Hg' & _).
  unfold ex_dtf_run. fold G. rewrite Hg. cbn [mbind res_bind]. rewrite Hg'. eapply dr_augment; [by apply dr_orient|exact Hg'].
Qed.

Section with_iter.
Context `{HashIter}.

(** What [orient] returns: [g] is [G] with every edge directed along [order]. *)
Definition oriented (G : graph) (g : dtfgraph) (order : list N) : Prop :=
    (∀ v, df_contains g v = contains G v) ∧ df_num_vertices g = num_vertices G ∧ df_num_edges g = Ok (num_edges G) ∧ df_depth g = 1 ∧
    (∀ u v, df_has_arc g u v = true ↔ adj G u v ∧ before order u v) ∧
    (∀ u v w, harc g w u v ↔ w = 1 ∧ adj G u v ∧ before order u v) ∧
    (∀ u v, df_adjacent g u v = adjacent G u v) ∧
    (∀ v, contains G v = true → ∃ li lo, df_in_neighbours g v = Ok li ∧ NoDup li ∧ NoDup lo ∧
      (∀ u, u ∈ li ↔ adj G u v ∧ before order u v) ∧ (∀ u, u ∈ lo ↔ adj G v u ∧ before order v u) ∧
      df_in_degree g v = Ok (length li) ∧ df_out_degree g v = Ok (length lo) ∧ df_degree g v = Ok (degree G v)).
Lemma orient_facts G g order : graph_wf G → loopless G → dtf_wf g → df_depth g = 1 → length (df_ms g) = 1 → NoDup order →
  (∀ v, v ∈ order ↔ vtx G v) → (∀ v, dvx g v ↔ vtx G v) →
  (∀ i u v, arc g i u v ↔ i = 0 ∧ adj G u v ∧ before order u v) → oriented G g order.
Proof.
  intros HG Hl Hwf Hd Hm Hnd Hel Hv Ha. unfold oriented.
  assert (∀ u v, df_has_arc g u v = true ↔ adj G u v ∧ before order u v) as Hha.
  { intros u v. rewrite df_has_arc_spec. setoid_rewrite Ha. naive_solver. }
  assert (∀ u v, adj G u v → before order u v ∨ before order v u) as Htot.
  { intros u v Huv. assert (u ∈ order) as Hu by (apply Hel; by apply (wf_adj_vtx G HG u v)).
    assert (v ∈ order) as Hv' by (apply Hel, (wf_adj_vtx G HG v u); by apply (wf_adj_sym G HG)).
    apply elem_of_list_lookup in Hu as [i Hi], Hv' as [j Hj].
    destruct (Nat.lt_trichotomy i j) as [?|[->|?]]; [left; by exists i, j| |right; by exists j, i].
    assert (u = v) as -> by congruence. by destruct (Hl v). }
  assert (∀ u v, before order u v → before order v u → False) as Hanti.
  { intros u v (i & j & Hi & Hj & ?) (j' & i' & Hj' & Hi' & ?).
    assert (i = i') by (eapply NoDup_lookup; [exact Hnd|exact Hi|exact Hi']). assert (j = j') by (eapply NoDup_lookup; [exact Hnd|exact Hj|exact Hj']). lia. }
  assert (∀ u v, df_adjacent g u v = adjacent G u v) as Hadj.
  { intros u v. apply eq_true_iff_eq. unfold df_adjacent. rewrite orb_true_iff, !Hha. fold (adj G u v). split.
    - intros [[? _]|[? _]]; [done|by apply (wf_adj_sym G HG)].
    - intros Huv. destruct (Htot u v Huv); [by left|]. right. split; [by apply (wf_adj_sym G HG)|done]. }
  split_and!; [ | | |done|done| |done|].
  - intros v. apply eq_true_iff_eq. rewrite df_contains_spec. apply Hv.
  - unfold df_num_vertices. rewrite (wf_num_vertices G HG). rewrite <- (size_dom (D:=gset N)).
    assert (dom (df_nodes g) = (list_to_set (vertices G) : gset N)) as ->; [|by rewrite size_list_to_set by apply (wf_vertices_nodup G HG)].
    apply set_eq. intros v. rewrite elem_of_dom, elem_of_list_to_set, (wf_vertices G HG), <- Hv. done.
  - destruct (num_edges_spec g Hwf) as (E & HE & ->); [lia|]. f_equal.
    destruct (edges_spec G HG) as (es & _ & Hnde & Hes & <-).
    set (f := λ e : N * N, if df_has_arc g e.1 e.2 then e else (e.2, e.1)).
    assert (E = list_to_set (f <$> es)) as ->.
    { apply set_eq. intros [u v]. rewrite HE, Ha, elem_of_list_to_set, elem_of_list_fmap. split.
      - intros (_ & Huv & Hb). destruct (N.leb_spec u v) as [Hle|Hgt].
        + exists (u, v). split; [|by apply Hes]. unfold f. cbn. by rewrite (proj2 (Hha u v) (conj Huv Hb)).
        + exists (v, u). split; [|apply Hes; split; [lia|by apply (wf_adj_sym G HG)]]. unfold f. cbn.
          destruct (df_has_arc g v u) eqn:E1; [|done]. apply Hha in E1 as [_ E1]. destruct (Hanti u v); done.
      - intros ([a b] & Hf & [_ Hab]%Hes). unfold f in Hf. cbn in Hf. destruct (df_has_arc g a b) eqn:E1; injection Hf as -> ->.
        + by apply Hha in E1.
        + split_and!; [done|by apply (wf_adj_sym G HG)|]. destruct (Htot a b Hab) as [Hb|Hb]; [|done].
          assert (df_has_arc g a b = true) by (by apply Hha). congruence. }
    rewrite size_list_to_set; [by rewrite fmap_length|]. apply NoDup_fmap_2_strong; [|done].
    intros [a b] [c d] [Hab _]%Hes [Hcd _]%Hes. unfold f. cbn. destruct (df_has_arc g a b), (df_has_arc g c d); intros [= -> ->]; f_equal; lia.
  - intros u v w. rewrite harc_arc. setoid_rewrite Ha. naive_solver.
  - intros v Hcv. assert (dvx g v) as Hdv by (by apply Hv).
    destruct (in_degree_spec g v Hwf Hdv) as (li & Hli & Hin); [lia|].
    destruct (in_neighbours_spec g v Hdv) as (li' & Hli' & Hmem). assert (li' = li) as -> by congruence.
    assert (NoDup li) as Hndi. { eapply in_neighbours_nodup; [|exact Hli]. intros i j x y (-> & _)%Ha (-> & _)%Ha. done. }
    destruct (out_degree_spec g v Hwf Hdv) as (E & HE & Hout); [lia|].
    exists li, (elements E).*2. assert (NoDup (elements E).*2) as Hndo.
    { apply NoDup_fmap_2_strong; [|apply NoDup_elements]. intros [i x] [j y] Hx Hy. rewrite elem_of_elements, HE, Ha in Hx, Hy. cbn. intros ->. by destruct Hx as [-> _], Hy as [-> _]. }
    assert (∀ u, u ∈ li ↔ adj G u v ∧ before order u v) as Hmi. { intros u. rewrite Hmem. setoid_rewrite Ha. naive_solver. }
    assert (∀ u, u ∈ (elements E).*2 ↔ adj G v u ∧ before order v u) as Hmo.
    { intros u. rewrite elem_of_list_fmap. split.
      - intros ([i x] & -> & Hx). rewrite elem_of_elements, HE, Ha in Hx. by destruct Hx as (_ & ? & ?).
      - intros [? ?]. exists (0, u). split; [done|]. rewrite elem_of_elements, HE, Ha. done. }
    assert (length (elements E).*2 = size E) as Hlen by (by rewrite fmap_length).
    split_and!; [done|done|done|done|done|done|by rewrite Hlen|].
    rewrite (degree_spec g v _ _ Hin Hout). f_equal. destruct (wf_neighbours G HG v Hcv) as (Nv & _ & HndN & HN & Hdeg).
    destruct (adjacent G v v) eqn:Evv; [by destruct (Hl v)|]. rewrite Hdeg, Nat.add_0_r, <- Hlen, <- app_length.
    apply Permutation_length, NoDup_Permutation; [|done|].
    + apply NoDup_app. split_and!; [done| |done]. intros u [_ Hu]%Hmo [_ Hu']%Hmi. eauto.
    + intros u. rewrite elem_of_app, Hmi, Hmo, HN. split; [intros [[? _]|[? _]]; [done|by apply (wf_adj_sym G HG)]|].
      intros Hvu. destruct (Htot v u Hvu); [by left|]. right. split; [by apply (wf_adj_sym G HG)|done].
Qed.
(** ** C51 *)
Theorem C51_orient (G : graph) : graph_wf G → loopless G →
  ∃ g order, df_orient G = Ok g ∧ NoDup order ∧ (∀ v, v ∈ order ↔ contains G v = true) ∧
    (∀ v, df_contains g v = contains G v) ∧ df_num_vertices g = num_vertices G ∧ df_num_edges g = Ok (num_edges G) ∧ df_depth g = 1 ∧
    (∀ u v, df_has_arc g u v = true ↔ adj G u v ∧ before order u v) ∧
    (∀ u v w, harc g w u v ↔ w = 1 ∧ adj G u v ∧ before order u v) ∧
    (∀ u v, df_adjacent g u v = adjacent G u v) ∧
    (∀ v, contains G v = true → ∃ li lo, df_in_neighbours g v = Ok li ∧ NoDup li ∧ NoDup lo ∧
      (∀ u, u ∈ li ↔ adj G u v ∧ before order u v) ∧ (∀ u, u ∈ lo ↔ adj G v u ∧ before order v u) ∧
      df_in_degree g v = Ok (length li) ∧ df_out_degree g v = Ok (length lo) ∧ df_degree g v = Ok (degree G v)).
Proof.
  intros HG Hl. destruct (orient_spec G HG Hl) as (g & lo & up & order & core & Hg & _ & Hwf & Hd & Hm & Hnd & Hel & Hv & Ha).
  exists g, order. split; [done|]. split; [done|]. split; [done|]. by apply orient_facts.
Qed.

(** ** C52 *)
(** [arcs_at] visits exactly the arcs whose head is at most their tail, as pairs (head, tail). *)
Theorem C52_arcs_at_partial (g : dtfgraph) (w : nat) : dtf_any g → 1 ≤ w ≤ df_depth g →
  ∃ s es, dai_new g (Some w) = Ok s ∧ drains (dai_next g (Some w)) s es ∧ NoDup es ∧
    ∀ a b, (a, b) ∈ es ↔ (a <= b)%N ∧ harc g w b a.
Proof.
  intros Hany Hw. destruct w as [|i]; [lia|]. destruct (arcs_at_spec g i (any_wf g Hany)) as (es & Hes & Hnd & Hm); [lia|].
  destruct (df_arcs_drains g (Some (S i)) es Hes) as (s & Hs & Hd). exists s, es. split_and!; [done|done|done|].
  intros a b. by rewrite Hm, harc_S.
Qed.
Theorem C52_arcs_partial (g : dtfgraph) : dtf_any g →
  ∃ s es, dai_new g None = Ok s ∧ drains (dai_next g None) s es ∧
    (∀ a b, (a, b) ∈ es ↔ (a <= b)%N ∧ df_has_arc g b a = true) ∧
    ((∀ u v w w', harc g w u v → harc g w' u v → w = w') → NoDup es).
Proof.
  intros Hany. destruct (arcs_all_spec g) as (es & Hes & Hnd & Hm).
  destruct (df_arcs_drains g None es Hes) as (s & Hs & Hd). exists s, es. split_and!; [done|done| |].
  - intros a b. by rewrite Hm, df_has_arc_spec.
  - intros Hu. apply Hnd. intros i j u v Hi Hj. specialize (Hu u v (S i) (S j)). rewrite !harc_S in Hu. injection (Hu Hi Hj). done.
Qed.

(** ** C53 *)
Theorem C53_augment_total (G : graph) (g : dtfgraph) (d f : nat) : graph_wf G → loopless G → dtf_reach_layer G g →
  ∃ g', df_augment g d f = Ok g' ∧ df_depth g' = max (df_depth g) d ∧
    (∀ w u v, harc g w u v → harc g' w u v) ∧
    (∀ w u v, harc g' w u v → harc g w u v ∨ (df_depth g < w ≤ df_depth g' ∧ df_has_arc g u v = false)).
Proof.
  intros HG Hl Hr. destruct (reach_layer_inv G g HG Hl Hr) as [Hinv _].
  destruct (augment_spec G g d f HG Hinv) as (g' & Hok & _ & Hd & H1 & H2 & _). exists g'. split_and!; [done|done| |].
  - intros w u v (i & -> & Hi)%harc_arc. apply harc_S. auto.
  - intros w u v (i & -> & Hi)%harc_arc. apply H2 in Hi as [Hi|[Hi Hn]]; [left; by apply harc_S|]. right. split; [lia|].
    rewrite <- df_has_arc_spec in Hn. by destruct (df_has_arc g u v).
Qed.
Theorem C53_weights (G : graph) (g : dtfgraph) : graph_wf G → loopless G → dtf_reach_layer G g →
  (∀ v, df_contains g v = contains G v) ∧
  (∀ w u v, harc g w u v → 1 ≤ w ∧ u ≠ v ∧ within (adj G) w u v) ∧
  (∀ w w' u v, harc g w u v → harc g w' u v → w = w') ∧
  (∃ g0, df_orient G = Ok g0 ∧ ∀ u v, harc g 1 u v ↔ df_has_arc g0 u v = true).
Proof.
  intros HG Hl Hr. destruct (reach_layer_inv G g HG Hl Hr) as [Hinv (g0 & Hg0 & Ha0)]. split_and!.
  - intros v. apply eq_true_iff_eq. rewrite df_contains_spec. apply (ai_vtx G g Hinv).
  - intros w u v (i & -> & Hi)%harc_arc. split_and!; [lia| |by apply (ai_within G g Hinv)]. intros ->. by eapply (ai_noloop G g Hinv).
  - intros w w' u v (i & -> & Hi)%harc_arc (j & -> & Hj)%harc_arc. f_equal. by eapply (ai_disj G g Hinv).
  - exists g0. split; [done|]. intros u v. rewrite harc_S, Ha0, df_has_arc_spec.
    destruct (orient_spec G HG Hl) as (g' & ? & ? & ? & ? & Hg' & _ & _ & _ & _ & _ & _ & _ & Ha). assert (g' = g0) as -> by congruence.
    split; [eauto|]. intros [i Hi]. pose proof Hi as Hi'. rewrite Ha in Hi'. by destruct Hi' as [-> _].
Qed.
Theorem C53_small_distance (G : graph) (g : dtfgraph) u v : graph_wf G → loopless G → dtf_reach_layer G g →
  contains G u = true → contains G v = true →
  ∃ o, df_small_distance g u v = Ok o ∧ ∀ d, o = Some d → 1 ≤ d ≤ df_depth g ∧ within (adj G) d u v.
Proof.
  intros HG Hl Hr Hu Hv. destruct (reach_layer_inv G g HG Hl Hr) as [Hinv _].
  destruct (small_distance_raw g u v (ai_wf G g Hinv) (ai_disj G g Hinv)) as (o & Ho & ->); [by apply (ai_vtx G g Hinv)..|].
  eexists. split; [done|]. intros d. destruct o as [d'|]; [|done]. destruct (Nat.ltb_spec (df_depth g) d'); [done|].
  intros [= ->]. destruct Ho as [Hc _]. destruct Hc as [(i & -> & [Ha|Ha])|(i & j & x & -> & _ & _ & H1 & H2)].
  - split; [lia|]. by apply (ai_within G g Hinv).
  - split; [lia|]. apply (W_sym G HG). by apply (ai_within G g Hinv).
  - split; [lia|]. apply (within_trans _ (S i) (S j) u x v); [apply (W_sym G HG)|]; by apply (ai_within G g Hinv).
Qed.

(** ** C54 *)
(** Exact for pairs joined by a shortest path that first climbs and then descends in the orientation. *)
Lemma nsteps_desc g k x y : nsteps (harc g 1) k x y ↔ desc g k x y.
Proof.
  revert x. induction k as [|k IH]; intros x; cbn [desc].
  - split; [intros HH; by inversion HH|intros ->; constructor].
  - split.
    + intros HH. inversion HH as [|? ? z ? Hxz Hzy]; subst. exists z. rewrite harc_S in Hxz. split; [done|]. by apply IH.
    + intros (z & Hxz & Hzy). econstructor; [apply harc_S; exact Hxz|]. by apply IH.
Qed.
Theorem C54_small_distance_partial (G : graph) (g : dtfgraph) x u v a b : graph_wf G → loopless G → dtf_reach G g →
  u ≠ v → nsteps (harc g 1) a x u → nsteps (harc g 1) b x v → is_dist (adj G) (a + b) u v → a + b ≤ df_depth g →
  df_small_distance g u v = Ok (Some (a + b)).
Proof.
  intros HG Hl Hr Hne Hxu%nsteps_desc Hxv%nsteps_desc [_ Hmin] Hle.
  destruct (reach_closed G g HG Hl Hr) as (Hinv & Hb & Ht).
  destruct (reach_layer_inv G g HG Hl (reach_reach_layer G g Hr)) as [_ (g0 & Hg0 & Ha0)].
  destruct (orient_spec G HG Hl) as (g' & ? & ? & order & ? & Hg' & _ & _ & _ & _ & Hnd & _ & _ & Ha). assert (g' = g0) as -> by congruence. clear Hg'.
  assert (∀ u v, arc g 0 u v → before order u v) as Hord. { intros p q Hpq. rewrite Ha0, Ha in Hpq. tauto. }
  assert (∀ w, within (adj G) w u v → a + b ≤ w) as Hlow. { intros w (n & ? & Hn%Hmin). lia. }
  assert (∀ k p q, desc g (S k) p q → dvx g p ∧ dvx g q) as Hends.
  { intros k. induction k as [|k IH]; intros p q (y & Hpy & Hyq).
    - cbn in Hyq. subst. split; [by eapply arc_tail; [apply Hinv|]|by eapply arc_head].
    - destruct (IH y q Hyq) as [_ ?]. split; [by eapply arc_tail; [apply Hinv|]|done]. }
  assert (∃ d, d ≤ a + b ∧ sd_cand g u v d) as (d & Hd & Hc).
  { destruct a as [|a]; [|destruct b as [|b]].
    - cbn in Hxu. subst x. destruct b as [|b]; [by cbn in Hxv|].
      destruct (desc_arc g order b u v Ht Hnd Hord Hxv) as (_ & j & Hj & Haj); [lia|]. exists (S j). split; [lia|]. left. eauto.
    - cbn in Hxv. subst x. destruct (desc_arc g order a v u Ht Hnd Hord Hxu) as (_ & j & Hj & Haj); [lia|]. exists (S j). split; [lia|]. left. eauto.
    - destruct (desc_arc g order a x u Ht Hnd Hord Hxu) as (_ & i & Hi & Hai); [lia|].
      destruct (desc_arc g order b x v Ht Hnd Hord Hxv) as (_ & j & Hj & Haj); [lia|].
      exists (S i + S j). split; [lia|]. right. exists i, j, x. split_and!; [done|by eapply Hb|by eapply Hb|done|done]. }
  assert (dvx g u ∧ dvx g v) as [Hu Hv].
  { destruct a as [|a]; [|destruct b as [|b]].
    - cbn in Hxu. subst x. destruct b as [|b]; [by cbn in Hxv|]. by destruct (Hends b u v Hxv).
    - cbn in Hxv. subst x. by destruct (Hends a v u Hxu).
    - by destruct (Hends a x u Hxu), (Hends b x v Hxv). }
  destruct (small_distance_raw g u v (ai_wf G g Hinv) (ai_disj G g Hinv) Hu Hv) as (o & Ho & ->).
  destruct o as [d'|]; [|by destruct (Ho d)]. destruct Ho as [Hc' Hmin']. specialize (Hmin' d Hc).
  assert (a + b ≤ d') as Hge.
  { apply Hlow. destruct Hc' as [(i & -> & [Hai|Hai])|(i & j & y & -> & _ & _ & H1 & H2)].
    - by apply (ai_within G g Hinv).
    - apply (W_sym G HG). by apply (ai_within G g Hinv).
    - apply (within_trans _ (S i) (S j) u y v); [apply (W_sym G HG)|]; by apply (ai_within G g Hinv). }
  assert (d' = a + b) as -> by lia. by rewrite (proj2 (Nat.ltb_ge _ _) Hle).
Qed.

(** Adjacent vertices get the value 1, and the values 1 and 2 are exact. *)
Theorem C54_small_values_partial (G : graph) (g : dtfgraph) u v : graph_wf G → loopless G → dtf_reach_layer G g →
  contains G u = true → contains G v = true →
  (adj G u v ↔ df_small_distance g u v = Ok (Some 1)) ∧
  (∀ d, u ≠ v → df_small_distance g u v = Ok (Some d) → d ≤ 2 → is_dist (adj G) d u v).
Proof.
  intros HG Hl Hr Hu Hv. destruct (C53_small_distance G g u v HG Hl Hr Hu Hv) as (o & Ho & Hod).
  destruct (reach_layer_inv G g HG Hl Hr) as [Hinv (g0 & Hg0 & Ha0)].
  assert (∀ d, o = Some d → ∃ n, n ≤ d ∧ nsteps (adj G) n u v) as Hw by (intros d Hd; by destruct (Hod d Hd)).
  assert (adj G u v → o = Some 1) as Hadj1.
  { intros Huv. destruct (small_distance_raw g u v (ai_wf G g Hinv) (ai_disj G g Hinv)) as (o' & Ho' & Hsd); [by apply (ai_vtx G g Hinv)..|].
    rewrite Ho in Hsd. injection Hsd as ->. clear Ho Hod Hw.
    destruct (orient_spec G HG Hl) as (g' & ? & ? & order & ? & Hg' & _ & _ & _ & _ & Hnd & Hel & _ & Ha). assert (g' = g0) as -> by congruence.
    assert (sd_cand g u v 1) as Hc.
    { left. exists 0. split; [done|]. rewrite !Ha0, !Ha.
      assert (u ∈ order) as Hu' by (apply Hel; done). assert (v ∈ order) as Hv' by (apply Hel; done).
      apply elem_of_list_lookup in Hu' as [i Hi], Hv' as [j Hj]. destruct (Nat.lt_trichotomy i j) as [?|[->|?]].
      - left. split_and!; [done|done|by exists i, j].
      - assert (u = v) as -> by congruence. by destruct (Hl v).
      - right. split_and!; [done|by apply (wf_adj_sym G HG)|by exists j, i]. }
    destruct o' as [d|]; [|by destruct (Ho' 1)]. destruct Ho' as [Hcd Hmin]. specialize (Hmin 1 Hc).
    assert (d = 1) as ->. { destruct Hcd as [(i & -> & _)|(i & j & ? & -> & _)]; lia. }
    pose proof (ai_depth G g Hinv). by rewrite (proj2 (Nat.ltb_ge _ _)) by lia. }
  assert (o = Some 1 → u ≠ v → adj G u v) as Hadj2.
  { intros Ho1 Hne. destruct (Hw 1 Ho1) as ([|[|n]] & ? & Hn); [by inversion Hn| |lia]. inversion Hn as [|? ? y ? Hy Hy']; subst. by inversion Hy'; subst. }
  rewrite Ho. split.
  - split; [intros Huv; by rewrite Hadj1|]. intros [= Ho1]. apply Hadj2; [done|]. intros ->.
    destruct (small_distance_raw g v v (ai_wf G g Hinv) (ai_disj G g Hinv)) as (o' & Ho' & Hsd); [by apply (ai_vtx G g Hinv)..|].
    rewrite Ho, Ho1 in Hsd. destruct o' as [d|]; [|done]. destruct (df_depth g <? d); [done|]. injection Hsd as <-.
    destruct Ho' as [[(i & [= <-] & [Hi|Hi])|(i & j & x & ? & _)] _]; [by apply (ai_noloop G g Hinv) in Hi..|lia].
  - intros d Hne [= Hod'] Hd2. destruct (Hw d Hod') as (n & Hn & Hsteps). destruct (Hod d Hod') as [[? _] _].
    assert (∀ m, nsteps (adj G) m u v → d ≤ m) as Hmin.
    { intros m Hm. destruct m as [|[|m]].
      - inversion Hm; subst. done.
      - inversion Hm as [|? ? y ? Hy Hy']; subst. inversion Hy'; subst. specialize (Hadj1 Hy). simplify_eq. lia.
      - lia. }
    split; [|done]. specialize (Hmin n Hsteps). by assert (n = d) as -> by lia.
Qed.
(** The distance of a vertex to itself is never reported as 0. *)
Theorem C54_self (G : graph) (g : dtfgraph) u : graph_wf G → loopless G → dtf_reach_layer G g →
  contains G u = true → ∃ o, df_small_distance g u u = Ok o ∧ o ≠ Some 0 ∧ o ≠ Some 1.
Proof.
  intros HG Hl Hr Hu. destruct (C53_small_distance G g u u HG Hl Hr Hu Hu) as (o & Ho & Hod). exists o. split_and!; [done| |].
  - intros ->. destruct (Hod 0 eq_refl) as [? _]. lia.
  - intros ->. apply (Hl u). by apply (proj1 (C54_small_values_partial G g u u HG Hl Hr Hu Hu)).
Qed.

(** ** C55 *)
Theorem C55_domset_partial (G : graph) (g : dtfgraph) (r : nat) : graph_wf G → loopless G → dtf_reach_layer G g →
  (N.of_nat (2 * r) * N.of_nat (2 * r) < u32_mod)%N →
  ∃ (D : gset N) g', df_domset g r = Ok (D, g') ∧ (∀ x, x ∈ D → contains G x = true) ∧
    ∀ v, contains G v = true → ∃ x, x ∈ D ∧ within (adj G) r x v.
Proof.
  intros HG Hl Hr Hrad. destruct (reach_layer_inv G g HG Hl Hr) as [Hinv _].
  destruct (df_domset_spec G g r HG Hinv Hrad) as (D & g' & Hok & _ & ? & ?). eauto 10.
Qed.
(** For larger radii the computation of the cutoff overflows. *)
Theorem C55_domset_overflow (G : graph) (g : dtfgraph) (r : nat) : graph_wf G → loopless G → dtf_reach_layer G g →
  (u32_mod <= N.of_nat (2 * r) * N.of_nat (2 * r))%N → df_domset g r = Panic.
Proof.
  intros HG Hl Hr Hrad. destruct (reach_layer_inv G g HG Hl Hr) as [Hinv _]. unfold df_domset.
  destruct (augment_spec G g r 2 HG Hinv) as (g' & -> & _). cbn [mbind res_bind].
  by rewrite (proj2 (N.ltb_ge _ _) Hrad).
Qed.

(** ** C56 *)
(** The counters are exact wherever the structure has one. *)
Theorem C56_counters (g : dtfgraph) (w : nat) : dtf_any g → 1 ≤ w ≤ df_depth g →
  match df_num_arcs_at g w with
  | Ok k => ∃ E : gset (N * N), (∀ u v, (u, v) ∈ E ↔ harc g w u v) ∧ k = size E
  | _ => length (df_ms g) < w ∧ ∀ u v, ¬ harc g w u v
  end.
Proof.
  intros Hany Hw. pose proof (any_wf g Hany) as Hg. destruct w as [|i]; [lia|].
  destruct (decide (i < length (df_ms g))) as [Hlt|Hge].
  - destruct (num_arcs_at_spec g i Hg) as (E & HE & ->); [lia|done|]. exists E. split; [|done]. intros u v. by rewrite HE, harc_S.
  - unfold df_num_arcs_at. rewrite (proj2 (Nat.ltb_ge _ _)) by lia. unfold sub_checked. cbn [Nat.leb mbind res_bind].
    rewrite Nat.sub_succ, Nat.sub_0_r. rewrite (proj2 (lookup_ge_None _ _)) by lia. cbn. split; [lia|].
    intros u v. rewrite harc_S. intros Ha%(dw_ms_len g Hg). lia.
Qed.
Theorem C56_counters_reach (G : graph) (g : dtfgraph) (w : nat) : graph_wf G → loopless G → dtf_reach_layer G g → 1 ≤ w ≤ df_depth g →
  ∃ E : gset (N * N), (∀ u v, (u, v) ∈ E ↔ harc g w u v) ∧ df_num_arcs_at g w = Ok (size E).
Proof.
  intros HG Hl Hr Hw. destruct (reach_layer_inv G g HG Hl Hr) as [Hinv _]. pose proof (ai_depth G g Hinv). destruct w as [|i]; [lia|].
  destruct (num_arcs_at_spec g i (ai_wf G g Hinv)) as (E & HE & Hok); [lia|lia|]. exists E. split; [|done]. intros u v. by rewrite HE, harc_S.
Qed.
(** In states reached without [layer], all arcs have a weight of at most the depth, so the
    answer 0 for larger weights is right as well. *)
Theorem C56_counters_all (G : graph) (g : dtfgraph) (w : nat) : graph_wf G → loopless G → dtf_reach G g → 1 ≤ w →
  ∃ E : gset (N * N), (∀ u v, (u, v) ∈ E ↔ harc g w u v) ∧ df_num_arcs_at g w = Ok (size E).
Proof.
  intros HG Hl Hr Hw. destruct (decide (w ≤ df_depth g)) as [Hle|Hgt].
  - apply (C56_counters_reach G); [done|done|by apply reach_reach_layer|lia].
  - destruct (reach_closed G g HG Hl Hr) as (_ & Hb & _). exists ∅. split.
    + intros u v. split; [set_solver|]. intros (i & -> & Hi%Hb)%harc_arc. lia.
    + unfold df_num_arcs_at. by rewrite (proj2 (Nat.ltb_lt _ _)) by lia.
Qed.
(** The calls that never lower the depth. *)
Theorem C56_depth_partial (G : graph) (g : dtfgraph) : graph_wf G → loopless G → dtf_reach_layer G g →
  (∀ d f g', df_augment g d f = Ok g' → df_depth g ≤ df_depth g') ∧
  (∀ r D g', df_domset g r = Ok (D, g') → df_depth g ≤ df_depth g') ∧
  (∀ u, df_depth (df_add_vertex g u) = df_depth g) ∧
  (∀ u v d g', df_depth g ≤ d → df_add_arc g u v d = Ok g' → df_depth g ≤ df_depth g') ∧
  (∀ d, df_depth g ≤ d → df_depth g ≤ df_depth (df_layer g d)).
Proof.
  intros HG Hl Hr. destruct (reach_layer_inv G g HG Hl Hr) as [Hinv _].
  assert (∀ d f g', df_augment g d f = Ok g' → df_depth g ≤ df_depth g') as Haug.
  { intros d f g' Hok. destruct (augment_spec G g d f HG Hinv) as (g1 & Hok1 & _ & Hd & _). assert (g1 = g') as -> by congruence. lia. }
  split_and!.
  - done.
  - intros r D g' Hok%domset_ok_augment. eauto.
  - intros u. apply add_vertex_depth.
  - intros u v d g' Hd Hok. assert (df_depth g' = d) as ->; [|done]. unfold df_add_arc in Hok.
    apply bind_ok in Hok as (i & _ & Hok). apply bind_ok in Hok as (X & _ & Hok). case_bool_decide; cbn [negb] in Hok.
    + injection Hok as <-. cbn. apply reserve_depth.
    + apply bind_ok in Hok as (? & _ & Hok). apply bind_ok in Hok as (? & _ & Hok). apply bind_ok in Hok as (? & _ & [= <-]). cbn. apply reserve_depth.
  - intros d Hd. unfold df_layer. by rewrite reserve_depth.
Qed.

(** ** C70 *)
(** A layer view of depth [w] has the arcs of weight [w]; its [adjacent], [degree], [in_degree] and
    [out_degree] are those of the whole augmentation. *)
Theorem C70_layer_partial (G : graph) (g : dtfgraph) (w : nat) : graph_wf G → loopless G → dtf_reach_layer G g → 1 ≤ w ≤ df_depth g →
  (∀ u v, ∃ b, dl_has_arc g w u v = Ok b ∧ (b = true ↔ harc g w u v)) ∧
  (∀ v, contains G v = true → ∃ l, dl_in_neighbours g w v = Ok l ∧ NoDup l ∧ ∀ u, u ∈ l ↔ dl_has_arc g w u v = Ok true) ∧
  (∃ E : gset (N * N), (∀ u v, (u, v) ∈ E ↔ dl_has_arc g w u v = Ok true) ∧ dl_num_edges g w = Ok (size E)) ∧
  (∀ u v, dl_has_arc g w u v = Ok true → dl_adjacent g w u v = true).
Proof.
  intros HG Hl Hr Hw. destruct (reach_layer_inv G g HG Hl Hr) as [Hinv _]. destruct w as [|i]; [lia|]. split_and!.
  - intros u v. unfold dl_has_arc. destruct (df_has_arc_at_total g u v i) as [b Hb]. exists b. split; [done|]. unfold harc. rewrite Hb. split; [by intros ->|by intros [= ->]].
  - intros v Hv. destruct (in_at_spec g v i (ai_wf G g Hinv)) as (l & Hok & Hnd & Hm); [by apply (ai_vtx G g Hinv)|lia|].
    exists l. split_and!; [done|done|]. intros u. rewrite Hm. symmetry. apply harc_S.
  - apply (C56_counters_reach G g (S i)); done.
  - intros u v Ha. change (harc g (S i) u v) in Ha. apply harc_S in Ha. apply df_adjacent_spec. eauto.
Qed.

(** ** C71 *)
Theorem C71_weights_agree (G : graph) (g : dtfgraph) : graph_wf G → loopless G → dtf_reach G g →
  (∀ u v, contains G v = true → ∃ o, df_arc_depth g u v = Ok o ∧ ∀ w, o = Some w ↔ harc g w u v) ∧
  (∀ v, contains G v = true → ∃ m li, df_in_weights g v = Ok m ∧ (∀ u w, m !! u = Some w ↔ harc g w u v) ∧
     df_in_neighbours g v = Ok li ∧ NoDup li ∧ (∀ u, u ∈ li ↔ is_Some (m !! u)) ∧ df_in_degree g v = Ok (size m)) ∧
  (∀ u v, df_has_arc g u v = true ↔ ∃ w, harc g w u v) ∧
  (∀ u v, df_adjacent g u v = true ↔ df_has_arc g u v = true ∨ df_has_arc g v u = true) ∧
  (∀ v, contains G v = true → ∃ (E : gset N) k, (∀ u, u ∈ E ↔ df_has_arc g v u = true) ∧ df_out_degree g v = Ok (size E) ∧
     df_in_degree g v = Ok k ∧ df_degree g v = Ok (size E + k)).
Proof.
  intros HG Hl Hr. destruct (reach_closed G g HG Hl Hr) as (Hinv & Hb & _).
  pose proof (ai_wf G g Hinv) as Hg. pose proof (ai_disj G g Hinv) as Hdis. pose proof (ai_depth G g Hinv) as Hd.
  assert (∀ v, contains G v = true → ∃ m li, df_in_weights g v = Ok m ∧ (∀ u w, m !! u = Some w ↔ harc g w u v) ∧
     df_in_neighbours g v = Ok li ∧ NoDup li ∧ (∀ u, u ∈ li ↔ is_Some (m !! u)) ∧ df_in_degree g v = Ok (size m)) as H2.
  { intros v Hv. assert (dvx g v) as Hdv by (by apply (ai_vtx G g Hinv)).
    destruct (in_weights_spec g v Hg Hdv Hdis) as (m & Hm & Hmm). destruct (in_degree_spec g v Hg Hdv) as (li & Hli & Hin); [lia|].
    destruct (in_neighbours_spec g v Hdv) as (li' & Hli' & Hmem). assert (li' = li) as -> by congruence.
    assert (∀ u w, m !! u = Some w ↔ harc g w u v) as Hmh.
    { intros u w. rewrite Hmm, harc_arc. split; [naive_solver|]. intros (i & -> & Hi). exists i. split_and!; [done|by eapply Hb|done]. }
    assert (NoDup li) as Hnd by (by eapply in_neighbours_nodup).
    assert (∀ u, u ∈ li ↔ is_Some (m !! u)) as Hms.
    { intros u. rewrite Hmem. unfold is_Some. setoid_rewrite Hmh. setoid_rewrite harc_arc. naive_solver. }
    exists m, li. split_and!; [done|done|done|done|done|]. rewrite Hin. f_equal. rewrite <- (size_dom (D:=gset N)).
    rewrite <- (size_list_to_set (C:=gset N) li Hnd). f_equal. apply set_eq. intros u. by rewrite elem_of_list_to_set, elem_of_dom, Hms. }
  split_and!.
  - intros u v Hv. destruct (arc_depth_spec g u v) as (o & Ho & Hspec); [by apply (ai_vtx G g Hinv)|]. exists o. split; [done|].
    intros w. rewrite harc_arc. destruct o as [d|].
    + destruct Hspec as (i & -> & Hi & _). split; [intros [= <-]; eauto|]. intros (j & -> & Hj). by rewrite (Hdis _ _ _ _ Hi Hj).
    + split; [done|]. intros (j & -> & Hj). by destruct (Hspec j).
  - exact H2.
  - intros u v. rewrite df_has_arc_spec. setoid_rewrite harc_arc. naive_solver.
  - intros u v. unfold df_adjacent. by rewrite orb_true_iff.
  - intros v Hv. assert (dvx g v) as Hdv by (by apply (ai_vtx G g Hinv)).
    destruct (H2 v Hv) as (m & _ & _ & _ & _ & _ & _ & Hin). destruct (out_degree_spec g v Hg Hdv) as (E & HE & Hout); [lia|].
    exists (list_to_set (elements E).*2), (size m).
    assert (NoDup (elements E).*2) as Hndo.
    { apply NoDup_fmap_2_strong; [|apply NoDup_elements]. intros [i x] [j y] Hx Hy. rewrite elem_of_elements, HE in Hx, Hy. cbn. intros ->.
      by rewrite (Hdis _ _ _ _ Hx Hy). }
    assert (size (list_to_set (elements E).*2 : gset N) = size E) as Hsz. { rewrite size_list_to_set by done. by rewrite fmap_length. }
    rewrite Hsz. split_and!; [|done|done|by apply degree_spec].
    intros u. rewrite elem_of_list_to_set, elem_of_list_fmap, df_has_arc_spec. split.
    + intros ([i x] & -> & Hx). rewrite elem_of_elements, HE in Hx. eauto.
    + intros [i Hi]. exists (i, u). split; [done|]. by rewrite elem_of_elements, HE.
Qed.

(** ** C72 *)
Lemma loop_ext od od' fuel g d : (∀ h, od h = od' h) → df_augment_loop od fuel g d = df_augment_loop od' fuel g d.
Proof.
  intros He. revert g. induction fuel as [|fuel IH]; intros g; [done|]. cbn [df_augment_loop].
  assert (df_augment_step od g = df_augment_step od' g) as ->; [|by destruct (_ <? _), (df_augment_step od' g); cbn].
  unfold df_augment_step. destruct (df_collect _ _) as [[T h]| |]; [|done..]. cbn [mbind res_bind].
  destruct (fold_res _ _ _) as [[g1 h1]| |]; [|done..]. cbn [mbind res_bind]. by rewrite He.
Qed.
(** [orient_deep] returns an acyclic orientation of a subgraph with the same vertices; for a depth of
    at least 2 an edge survives only if the augmentation of [orient(G)] has an arc from its larger to its smaller end. *)
Theorem C72_orient_deep_partial (G : graph) (d : nat) : graph_wf G → loopless G →
  ∃ g order, df_orient_deep G d = Ok g ∧ NoDup order ∧ df_depth g = 1 ∧ (∀ v, df_contains g v = contains G v) ∧
    (∀ u v w, harc g w u v → w = 1 ∧ adj G u v ∧ before order u v) ∧
    (d ≤ 1 → ∀ u v, adj G u v → df_adjacent g u v = true) ∧
    (2 ≤ d → ∃ g0 g1, df_orient G = Ok g0 ∧ df_augment g0 d 0 = Ok g1 ∧
      ∀ u v, adj G u v → (df_adjacent g u v = true ↔ df_has_arc g1 (N.max u v) (N.min u v) = true)).
Proof.
  intros HG Hl. destruct (orient_deep_spec G d HG Hl) as (g & order & Hok & Hwf & Hd & Hnd & Hv & Ha & g1 & Hg1 & Hadj).
  exists g, order. split_and!; [done|done|done| | | |].
  - intros v. apply eq_true_iff_eq. rewrite df_contains_spec. apply Hv.
  - intros u v w (i & -> & (-> & ? & ?)%Ha)%harc_arc. done.
  - intros Hle u v Huv. rewrite df_adjacent_spec, (Hadj u v Huv). by rewrite (proj2 (Nat.leb_le _ _) Hle).
  - intros Hge. rewrite (proj2 (Nat.leb_gt d 1)) in Hg1, Hadj by lia. apply bind_ok in Hg1 as (g0 & Hg0 & Hg1). exists g0, g1. split; [done|]. split.
    + unfold df_augment. rewrite <- Hg1. apply loop_ext. intros h. unfold df_orient_deep. by destruct (df_orient (eg_graph h)).
    + intros u v Huv. rewrite df_adjacent_spec, (Hadj u v Huv), df_has_arc_spec.
      destruct (N.le_gt_cases u v) as [Hle|Hgt].
      * rewrite N.max_r, N.min_l by done. split; [|by left]. intros [[_ ?]|[Hle' ?]]; [done|]. assert (u = v) as -> by lia. by destruct (Hl v).
      * rewrite N.max_l, N.min_r by lia. split; [|right; split; [lia|done]]. intros [[Hle' ?]|[_ ?]]; [lia|done].
Qed.

(** ** C73 *)
Theorem C73_to_undirected_partial (g : dtfgraph) : dtf_any g →
  ∃ h, df_to_undirected g = Ok h ∧ graph_wf (eg_graph h) ∧ (∀ v, eg_contains h v = df_contains g v) ∧
    (∀ u v, eg_adjacent h u v = df_has_arc g (N.max u v) (N.min u v)).
Proof.
  intros Hany. destruct (to_undirected_spec g (any_wf g Hany)) as (h & Hok & Hh & Hv & He). exists h. split_and!; [done|by apply eg_graph_wf| |].
  - intros v. apply eq_true_iff_eq. rewrite df_contains_spec. apply Hv.
  - intros u v. apply eq_true_iff_eq. rewrite df_has_arc_spec. fold (ea h u v). rewrite He. destruct (N.le_gt_cases u v) as [Hle|Hgt].
    + rewrite N.max_r, N.min_l by done. split; [|by left]. intros [[_ ?]|[Hle' ?]]; [done|]. by assert (u = v) as -> by lia.
    + rewrite N.max_l, N.min_r by lia. split; [|right; split; [lia|done]]. intros [[Hle' ?]|[_ ?]]; [lia|done].
Qed.
Theorem C73_edge_subgraph (g : dtfgraph) (es : list (N * N)) : dtf_any g →
  ∃ g', df_edge_subgraph g es = Ok g' ∧ df_depth g' = 1 ∧ (∀ v, df_contains g' v = df_contains g v) ∧
    ∀ u v w, harc g' w u v ↔ w = 1 ∧ df_has_arc g u v = true ∧ ((u, v) ∈ es ∨ (v, u) ∈ es).
Proof.
  intros Hany. destruct (edge_subgraph_spec g es) as (g' & Hok & _ & Hd & Ha & Hv). specialize (Hv (any_wf g Hany)). exists g'. split_and!; [done|done| |].
  - intros v. apply eq_true_iff_eq. by rewrite !df_contains_spec.
  - intros u v w. rewrite harc_arc, df_has_arc_spec. setoid_rewrite Ha. naive_solver.
Qed.
End with_iter.

#[local] Existing Instance std_iter.

Lemma dtf_reach_any G g : graph_wf G → loopless G → dtf_reach G g → dtf_any g.
Proof.
  intros HG Hl. induction 1 as [g Hg|g d f g' _ IH Hg|g r D g' _ IH Hg]; [by eapply da_orient|by eapply da_augment|by eapply da_domset].
Qed.
Lemma ex_dtf_any es d f : forallb (λ e : N * N, negb (e.1 =? e.2)%N) es = true → dtf_any (ex_dtf_run es d f).
Proof. intros (? & ? & Hr)%(λ p, ex_dtf_ok es d f p). by eapply dtf_reach_any. Qed.

Example ex_C51 : graph_wf (eg_graph ex_dtf_graph) ∧ loopless (eg_graph ex_dtf_graph) ∧
  (g ← df_orient (eg_graph ex_dtf_graph); Ok (map (λ v, df_in_neighbours g v) [0; 1; 2; 3; 4; 5; 6]%N)) =
  Ok [Ok [1; 2]; Ok [2]; Ok []; Ok [0]; Ok [0]; Ok [4; 6]; Ok [1]]%N.
Proof. destruct (ex_dtf_ok ex_dtf_edges 1 0) as (Hwf & Hl & _); [done|]. split; [exact Hwf|]. split; [exact Hl|]. vm_compute. done. Qed.
Example ex_C52 : dtf_any (ex_dtf_run ex_dtf_edges 3 2) ∧ df_depth (ex_dtf_run ex_dtf_edges 3 2) = 3 ∧
  df_arcs_list (ex_dtf_run ex_dtf_edges 3 2) (Some 1) = Ok [(0, 1); (0, 2); (1, 2); (5, 6)]%N.
Proof. split; [by apply ex_dtf_any|]. vm_compute. done. Qed.
(** The orientation of the example has the arc 0 → 3 of weight 1, which neither iterator yields in any direction;
    the item (0, 1) stands for the arc 1 → 0. *)
Theorem C52_refuted : ∃ g, dtf_any g ∧ harc g 1 0 3 ∧ harc g 1 1 0 ∧ ¬ harc g 1 0 1 ∧
  ∀ mode, mode = None ∨ mode = Some 1 → ∃ s es, dai_new g mode = Ok s ∧ drains (dai_next g mode) s es ∧
    (0, 3)%N ∉ es ∧ (3, 0)%N ∉ es ∧ (0, 1)%N ∈ es ∧ (1, 0)%N ∉ es.
Proof.
  exists (ex_dtf_run ex_dtf_edges 1 0). split_and!; [by apply ex_dtf_any|vm_compute; done..| |].
  { unfold harc. intros Hh. assert (df_has_arc_at (ex_dtf_run ex_dtf_edges 1 0) 0 1 1 = Ok false) by (vm_compute; done). congruence. }
  assert (∀ mode, mode = None ∨ mode = Some 1 → df_arcs_list (ex_dtf_run ex_dtf_edges 1 0) mode = Ok [(0, 1); (0, 2); (1, 2); (5, 6)]%N) as He.
  { intros ? [->| ->]; vm_compute; done. }
  intros mode Hm. destruct (df_arcs_drains _ mode _ (He mode Hm)) as (s & ? & ?). exists s, [(0, 1); (0, 2); (1, 2); (5, 6)]%N.
  split_and!; [done|done|apply (bool_decide_unpack _); vm_compute; exact I..].
Qed.
Example ex_C53 : dtf_reach_layer (eg_graph ex_dtf_graph) (ex_dtf_run ex_dtf_edges 2 2) ∧
  (g ← df_augment (ex_dtf_run ex_dtf_edges 2 2) 3 2; Ok (df_ms g, df_small_distance g 3 5, df_small_distance g 0 6)) =
  Ok ([8; 8; 2], Ok (Some 3), Ok (Some 2)).
Proof. split; [|vm_compute; done]. apply reach_reach_layer. by apply (ex_dtf_ok ex_dtf_edges 2 2). Qed.
(** Augmenting to depth 2 misses a pair at distance 2, whichever look-ahead is used; augmenting to depth 3
    reports the distance 3 for it. *)
Definition ex_far_edges : list (N * N) :=
  combinations2 [0; 4; 5; 6; 7; 8]%N ++ combinations2 [1; 2; 3; 10; 11; 12]%N ++ [(9, 0); (9, 1); (9, 2); (9, 3)]%N.
Theorem C54_refuted : ∃ G : graph, graph_wf G ∧ loopless G ∧ is_dist (adj G) 2 0%N 1%N ∧
  (∀ f, f ≤ 2 → ∃ g0 g, df_orient G = Ok g0 ∧ df_augment g0 2 f = Ok g ∧ df_small_distance g 0 1 = Ok None) ∧
  (∀ f, f ≤ 2 → ∃ g0 g, df_orient G = Ok g0 ∧ df_augment g0 3 f = Ok g ∧ df_small_distance g 0 1 = Ok (Some 3)).
Proof.
  exists (eg_graph (ex_edit ex_far_edges)). destruct (ex_edit_spec ex_far_edges) as [Hwf Hadj].
  assert (∀ d f, ∃ g0 g, df_orient (eg_graph (ex_edit ex_far_edges)) = Ok g0 ∧ df_augment g0 d f = Ok g ∧ g = ex_dtf_run ex_far_edges d f) as Hrun.
  { intros d f. destruct (ex_dtf_ok ex_far_edges d f) as (_ & Hl & _); [vm_compute; done|].
    destruct (C51_orient _ Hwf Hl) as (g0 & _ & Hg0 & _). exists g0.
    destruct (C53_augment_total _ g0 d f Hwf Hl (drl_orient _ _ Hg0)) as (g & Hg & _). exists g. split_and!; [done|done|].
    unfold ex_dtf_run. rewrite Hg0. cbn [mbind res_bind]. by rewrite Hg. }
  split; [exact Hwf|]. split; [by apply ex_loopless; vm_compute|].
  assert (∀ u v, adj (eg_graph (ex_edit ex_far_edges)) u v ↔ (u, v) ∈ ex_far_edges ∨ (v, u) ∈ ex_far_edges) as Hadj' by exact Hadj.
  clear Hwf Hadj. revert Hrun Hadj'. generalize (eg_graph (ex_edit ex_far_edges)). intros G Hrun Hadj. split_and!.
  - split.
    + apply (nsteps_l _ 1 _ 9%N); [|apply nsteps_once]; apply Hadj; [right|left]; apply (bool_decide_unpack _); vm_compute; exact I.
    + intros [|[|n]] Hn; [by inversion Hn| |lia]. exfalso. apply nsteps_once_inv in Hn. apply Hadj in Hn.
      assert (bool_decide ((0, 1)%N ∈ ex_far_edges ∨ (1, 0)%N ∈ ex_far_edges) = false) as Hf by (vm_compute; done).
      by apply bool_decide_eq_false in Hf.
  - intros f Hf. destruct (Hrun 2 f) as (g0 & g & ? & ? & ->). eexists _, _. split_and!; [done|done|].
    destruct f as [|[|[|f]]]; [vm_compute; done..|lia].
  - intros f Hf. destruct (Hrun 3 f) as (g0 & g & ? & ? & ->). eexists _, _. split_and!; [done|done|].
    destruct f as [|[|[|f]]]; [vm_compute; done..|lia].
Qed.
(** A pair with a common weight-1 ancestor: 2 → 1 → 6 and 2 → 0 → 3. *)
Example ex_C54 : dtf_reach (eg_graph ex_dtf_graph) (ex_dtf_run ex_dtf_edges 4 2) ∧
  harc (ex_dtf_run ex_dtf_edges 4 2) 1 2 1 ∧ harc (ex_dtf_run ex_dtf_edges 4 2) 1 1 6 ∧
  harc (ex_dtf_run ex_dtf_edges 4 2) 1 2 0 ∧ harc (ex_dtf_run ex_dtf_edges 4 2) 1 0 3 ∧
  df_small_distance (ex_dtf_run ex_dtf_edges 4 2) 3 6 = Ok (Some 3) ∧
  df_small_distance (ex_dtf_run ex_dtf_edges 4 2) 3 3 = Ok (Some 2).
Proof. split; [by apply (ex_dtf_ok ex_dtf_edges 4 2)|]. vm_compute. done. Qed.

Example ex_C55 : dtf_reach_layer (eg_graph ex_dtf_graph) (ex_dtf_run ex_dtf_edges 1 0) ∧
  (r ← df_domset (ex_dtf_run ex_dtf_edges 1 0) 1; Ok (elements r.1)) = Ok [0; 5]%N ∧
  (r ← df_domset (ex_dtf_run ex_dtf_edges 1 0) 2; Ok (elements r.1)) = Ok [3; 5]%N.
Proof. split; [|vm_compute; done]. apply reach_reach_layer. by apply (ex_dtf_ok ex_dtf_edges 1 0). Qed.
Theorem C55_large_radius_refuted : ∃ (G : graph) (g : dtfgraph) (r : nat), graph_wf G ∧ loopless G ∧ df_orient G = Ok g ∧
  (N.of_nat r < u32_mod)%N ∧ df_domset g r = Panic.
Proof.
  destruct (ex_dtf_ok ex_dtf_edges 1 0) as (Hwf & Hl & _); [done|]. exists (eg_graph ex_dtf_graph).
  destruct (C51_orient _ Hwf Hl) as (g0 & _ & Hg0 & _). exists g0, (N.to_nat 32768). split; [exact Hwf|]. split; [exact Hl|]. split; [exact Hg0|].
  split; [rewrite N2Nat.id; vm_compute; done|]. apply (C55_domset_overflow _ _ _ Hwf Hl (drl_orient _ _ Hg0)).
  assert (N.of_nat (2 * N.to_nat 32768) = 65536)%N as -> by (rewrite Nat2N.inj_mul, N2Nat.id; vm_compute; done). vm_compute. congruence.
Qed.

Example ex_C56 : dtf_reach (eg_graph ex_dtf_graph) (ex_dtf_run ex_dtf_edges 3 2) ∧
  map (df_num_arcs_at (ex_dtf_run ex_dtf_edges 3 2)) [1; 2; 3; 4] = [Ok 8; Ok 8; Ok 2; Ok 0].
Proof. split; [by apply (ex_dtf_ok ex_dtf_edges 3 2)|]. vm_compute. done. Qed.
(** [layer(1)] on an augmentation of depth 3 lowers the depth, and then the 8 arcs of weight 2 are counted as 0;
    [add_arc] with weight 1 does the same. *)
Theorem C56_depth_refuted : ∃ g, dtf_any g ∧ df_depth g = 3 ∧ df_num_arcs_at g 2 = Ok 8 ∧ harc g 2 1 3 ∧
  df_depth (df_layer g 1) = 1 ∧ df_num_arcs_at (df_layer g 1) 2 = Ok 0 ∧ harc (df_layer g 1) 2 1 3 ∧
  ∃ g', df_add_arc g 0 8 1 = Ok g' ∧ df_depth g' = 1.
Proof.
  exists (ex_dtf_run ex_dtf_edges 3 2). split; [by apply ex_dtf_any|]. split_and!; [vm_compute; done..|].
  destruct (df_add_arc (ex_dtf_run ex_dtf_edges 3 2) 0 8 1) as [g'| |] eqn:Hg.
  - exists g'. split; [done|].
    assert (match df_add_arc (ex_dtf_run ex_dtf_edges 3 2) 0 8 1 with Ok g' => df_depth g' =? 1 | _ => false end = true) as Hb by (vm_compute; done).
    rewrite Hg in Hb. by apply Nat.eqb_eq.
  - assert (match df_add_arc (ex_dtf_run ex_dtf_edges 3 2) 0 8 1 with Ok g' => true | _ => false end = true) as Hb by (vm_compute; done).
    by rewrite Hg in Hb.
  - assert (match df_add_arc (ex_dtf_run ex_dtf_edges 3 2) 0 8 1 with Ok g' => true | _ => false end = true) as Hb by (vm_compute; done).
    by rewrite Hg in Hb.
Qed.
(** Raising the depth by more than one leaves counters missing: the query panics and so does the next [add_arc]. *)
Theorem C56_jump_refuted : ∃ g, dtf_any g ∧ df_depth g = 5 ∧ df_num_arcs_at g 3 = Panic ∧ df_add_arc g 0 8 5 = Panic.
Proof.
  exists (df_layer (ex_dtf_run ex_dtf_edges 1 0) 5). split; [by apply da_layer, ex_dtf_any|]. vm_compute. done.
Qed.

(** In the layer of depth 1, 1 and 3 are adjacent although the layer has no arc between them, and the in-degree of 3
    counts three arcs although the layer has one. *)
Theorem C70_refuted : ∃ (G : graph) g, graph_wf G ∧ loopless G ∧ dtf_reach G g ∧
  dl_adjacent g 1 1 3 = true ∧ dl_has_arc g 1 1 3 = Ok false ∧ dl_has_arc g 1 3 1 = Ok false ∧
  dl_in_neighbours g 1 3 = Ok [0]%N ∧ dl_in_degree g 1 3 = Ok 3 ∧ dl_degree g 1 3 = Ok 3 ∧
  dl_in_neighbours g 1 1 = Ok [2]%N ∧ dl_out_degree g 1 1 = Ok 5.
Proof.
  exists (eg_graph ex_dtf_graph), (ex_dtf_run ex_dtf_edges 3 2). destruct (ex_dtf_ok ex_dtf_edges 3 2) as (Hwf & Hl & Hr); [done|].
  split; [exact Hwf|]. split; [exact Hl|]. split; [exact Hr|]. vm_compute. done.
Qed.
Example ex_C71 : dtf_reach (eg_graph ex_dtf_graph) (ex_dtf_run ex_dtf_edges 3 2) ∧
  (m ← df_in_weights (ex_dtf_run ex_dtf_edges 3 2) 5; Ok (map_to_list m)) = Ok [(0, 2%nat); (1, 2%nat); (2, 3%nat); (4, 1%nat); (6, 1%nat)]%N ∧
  df_arc_depth (ex_dtf_run ex_dtf_edges 3 2) 2 5 = Ok (Some 3) ∧ df_arc_depth (ex_dtf_run ex_dtf_edges 3 2) 5 2 = Ok None ∧
  df_in_degree (ex_dtf_run ex_dtf_edges 3 2) 5 = Ok 5 ∧ df_out_degree (ex_dtf_run ex_dtf_edges 3 2) 0 = Ok 4.
Proof. split; [by apply (ex_dtf_ok ex_dtf_edges 3 2)|]. vm_compute. done. Qed.
(** [orient_deep(G, 2)] loses the edge between 0 and 3. *)
Theorem C72_refuted : ∃ (G : graph) g, graph_wf G ∧ loopless G ∧ df_orient_deep G 2 = Ok g ∧ adj G 0 3 ∧
  df_adjacent g 0 3 = false ∧ num_edges G = 8 ∧ df_num_edges g = Ok 4.
Proof.
  destruct (ex_dtf_ok ex_dtf_edges 1 0) as (Hwf & Hl & _); [done|]. exists (eg_graph ex_dtf_graph).
  destruct (C72_orient_deep_partial _ 2 Hwf Hl) as (g & _ & Hg & _). exists g. split; [exact Hwf|]. split; [exact Hl|]. split; [exact Hg|].
  assert (match df_orient_deep (eg_graph ex_dtf_graph) 2 with
    | Ok g => negb (df_adjacent g 0 3) && match df_num_edges g with Ok k => k =? 4 | _ => false end | _ => false end = true) as Hb by (vm_compute; done).
  fold ex_dtf_graph in Hg. rewrite Hg in Hb. apply andb_true_iff in Hb as [H1%negb_true_iff H2].
  split; [vm_compute; done|]. split; [done|]. split; [vm_compute; done|]. destruct (df_num_edges g); [|done..]. by apply Nat.eqb_eq in H2 as ->.
Qed.
(** [to_undirected] loses the edge between 0 and 3. *)
Theorem C73_refuted : ∃ (G : graph) g h, graph_wf G ∧ loopless G ∧ df_orient G = Ok g ∧ df_to_undirected g = Ok h ∧ adj G 0 3 ∧
  harc g 1 0 3 ∧ eg_adjacent h 0 3 = false.
Proof.
  destruct (ex_dtf_ok ex_dtf_edges 1 0) as (Hwf & Hl & _); [done|]. exists (eg_graph ex_dtf_graph).
  destruct (C51_orient _ Hwf Hl) as (g & _ & Hg & _).
  destruct (C73_to_undirected_partial g) as (h & Hh & _); [by eapply da_orient|]. exists g, h.
  split; [exact Hwf|]. split; [exact Hl|]. split; [exact Hg|]. split; [exact Hh|].
  assert (match (g ← df_orient (eg_graph ex_dtf_graph); h ← df_to_undirected g; a ← df_has_arc_at g 0 3 1; Ok (a && negb (eg_adjacent h 0 3)))
    with Ok b => b | _ => false end = true) as Hb by (vm_compute; done).
  fold ex_dtf_graph in Hg. rewrite Hg in Hb. cbn [mbind res_bind] in Hb. rewrite Hh in Hb. cbn [mbind res_bind] in Hb.
  split; [vm_compute; done|]. unfold harc. destruct (df_has_arc_at g 0 3 1) as [a| |]; [|done..]. cbn [mbind res_bind] in Hb.
  apply andb_true_iff in Hb as [-> H2%negb_true_iff]. split; [reflexivity|exact H2].
Qed.
Example ex_C73 : dtf_any (ex_dtf_run ex_dtf_edges 3 2) ∧
  (g ← df_edge_subgraph (ex_dtf_run ex_dtf_edges 3 2) [(3, 0); (5, 2); (4, 5); (3, 6)]%N; Ok (df_ms g, map (λ v, df_in_neighbours g v) [0; 3; 5]%N)) =
  Ok ([3], [Ok []; Ok [0%N]; Ok [2%N; 4%N]]).
Proof. split; [by apply ex_dtf_any|]. vm_compute. done. Qed.

Print Assumptions C51_orient.
Print Assumptions C52_arcs_at_partial.
Print Assumptions C52_arcs_partial.
Print Assumptions C53_augment_total.
Print Assumptions C53_weights.
Print Assumptions C53_small_distance.
Print Assumptions C54_small_distance_partial.
Print Assumptions C54_small_values_partial.
Print Assumptions C54_self.
Print Assumptions C55_domset_partial.
Print Assumptions C55_domset_overflow.
Print Assumptions C56_counters.
Print Assumptions C56_counters_reach.
Print Assumptions C56_counters_all.
Print Assumptions C56_depth_partial.
Print Assumptions C70_layer_partial.
Print Assumptions C71_weights_agree.
Print Assumptions C72_orient_deep_partial.
Print Assumptions C73_to_undirected_partial.
Print Assumptions C73_edge_subgraph.
Print Assumptions C52_refuted.
Print Assumptions C54_refuted.
Print Assumptions C55_large_radius_refuted.
Print Assumptions C56_depth_refuted.
Print Assumptions C56_jump_refuted.
Print Assumptions C70_refuted.
Print Assumptions C72_refuted.
Print Assumptions C73_refuted.
