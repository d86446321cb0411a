(** Orientation and augmentation of DTFGraph. *)
From Verif Require Import Base Spec M_Graph M_Iterators M_EditGraph M_Operations M_Algorithms M_OrdGraph M_DTF
  S_Graph S_Multi P_EditGraph P_EditGraph2 P_Graph P_Iterators P_Adds P_Operations P_OrdGraph P_Degeneracy P_DTF P_DTF2.

Section with_iter.
Context `{HashIter}.

Lemma orient_gen G lo up order core : weak_wf G → loopless G →
  degeneracy G = Ok (lo, up, order, core) → NoDup order → (∀ v, v ∈ order ↔ vtx G v) →
  ∃ g, df_orient G = Ok g ∧ dtf_wf g ∧ df_depth g = 1 ∧ length (df_ms g) = 1 ∧
    (∀ v, dvx g v ↔ vtx G v) ∧ (∀ i u v, arc g i u v ↔ i = 0 ∧ adj G u v ∧ before order u v).
Proof.
  intros Hwf Hl Hdeg Hnd Hel.
  unfold df_orient. rewrite Hdeg. cbn [mbind res_bind fst snd].
  pose proof (og_index_map_spec order Hnd) as Hp. set (ind := og_index_map order) in *. clearbody ind.
  set (step := λ (h : dtfgraph) (v : N),
    Nv ← neighbours G v; iv ← unwrap (ind !! v);
    fold_res (λ h u, iu ← unwrap (ind !! u); if iu <? iv then df_add_arc h u v 1 else df_add_arc h v u 1) Nv (df_add_vertex h v)).
  assert (dadds 0 (fold_res step (vertices G)) (λ x, ∃ v, v ∈ vertices G ∧ (x = v ∨ adj G v x))
    (λ x y, ∃ v, v ∈ vertices G ∧ ((x = v ∧ adj G v y ∧ before order v y) ∨ (y = v ∧ adj G v x ∧ before order x v)))) as Hfold.
  { apply (dadds_fold 0 step (vertices G)). intros v Hv. apply (ww_vertices G Hwf) in Hv.
    destruct (ww_neighbours G Hwf v Hv) as (Nv & HNv & Hadj).
    destruct (px_lookup ind order v Hp) as [Hiv _]; [by apply Hel|].
    eapply (dadds_ext 0 (λ h, Ok (df_add_vertex h v) ≫=
      fold_res (λ h u, iu ← unwrap (ind !! u); if iu <? px ind v then df_add_arc h u v 1 else df_add_arc h v u 1) Nv)
      _ (λ x, x = v ∨ ∃ u, u ∈ Nv ∧ (x = u ∨ x = v))
      (λ x y, False ∨ ∃ u, u ∈ Nv ∧ ((before order u v ∧ x = u ∧ y = v) ∨ (before order v u ∧ x = v ∧ y = u)))).
    - apply dadds_seq; [apply dadds_vertex|]. apply (dadds_fold 0 (λ h u, iu ← unwrap (ind !! u); if iu <? px ind v then df_add_arc h u v 1 else df_add_arc h v u 1) Nv
        (λ u x, x = u ∨ x = v) (λ u x y, (before order u v ∧ x = u ∧ y = v) ∨ (before order v u ∧ x = v ∧ y = u))).
      intros u Hu%Hadj. assert (vtx G u) as Huv by (apply (ww_adj_vtx G Hwf u v); by apply (ww_adj_sym G Hwf)).
      destruct (px_lookup ind order u Hp) as [Hiu _]; [by apply Hel|].
      assert (px ind u ≠ px ind v) as Hne.
      { intros Heq. assert (u = v) as -> by (eapply px_inj; [done|by apply Hel|by apply Hel|done]). by apply (Hl v). }
      destruct (Nat.ltb_spec (px ind u) (px ind v)) as [Hlt|Hge].
      + assert (before order u v) as Hb by (by eapply pos_map_before).
        assert (¬ before order v u) as Hb' by (rewrite (pos_map_before ind order v u _ _ Hp Hiv Hiu); lia).
        eapply dadds_ext; [apply (dadds_arc 0 u v)| |tauto|tauto]. intros h _. rewrite Hiu. cbn [unwrap mbind res_bind].
        by rewrite (proj2 (Nat.ltb_lt _ _) Hlt).
      + assert (before order v u) as Hb by (eapply pos_map_before; [done..|]; lia).
        assert (¬ before order u v) as Hb' by (rewrite (pos_map_before ind order u v _ _ Hp Hiu Hiv); lia).
        eapply dadds_ext; [apply (dadds_arc 0 v u)| |tauto|tauto]. intros h _. rewrite Hiu. cbn [unwrap mbind res_bind].
        by rewrite (proj2 (Nat.ltb_ge _ _) Hge).
    - intros h _. unfold step. rewrite HNv, Hiv. done.
    - intros x. cbn. split; [intros [?|(u & Hu%Hadj & [->|?])]; auto|intros [?|Ha%Hadj]; [auto|right; eauto]].
    - intros x y. cbn. split.
      + intros [[]|(u & Hu%Hadj & [(? & -> & ->)|(? & -> & ->)])]; auto.
      + intros [(-> & Ha%Hadj & ?)|(-> & Ha%Hadj & ?)]; right; eauto 10. }
  destruct (Hfold df_new new_wf eq_refl) as (g & Hok & Hg & Hd & Hm & Harc & Hvx); [done|].
  exists g. split; [exact Hok|].
  split_and!; [done|done|done| |].
  - intros v. rewrite Hvx. split.
    + intros [[n Hn]|(w & Hw & [->|Ha])]; [done|by apply (ww_vertices G Hwf)|].
      apply (ww_adj_vtx G Hwf v w). by apply (ww_adj_sym G Hwf).
    + intros Hv%(ww_vertices G Hwf). right. eauto.
  - intros i u v. rewrite Harc. split.
    + intros [(? & ? & ? & _)|[-> (w & Hw & [(-> & Ha & Hb)|(-> & Ha & Hb)])]]; [done|done|]. split_and!; [done| |done].
      by apply (ww_adj_sym G Hwf).
    + intros (-> & Ha & Hb). right. split; [done|]. exists u. split; [apply (ww_vertices G Hwf); by apply (ww_adj_vtx G Hwf u v)|]. auto.
Qed.

Lemma orient_spec G : graph_wf G → loopless G →
  ∃ g lo up order core, df_orient G = Ok g ∧ degeneracy G = Ok (lo, up, order, core) ∧
    dtf_wf g ∧ df_depth g = 1 ∧ length (df_ms g) = 1 ∧
    NoDup order ∧ (∀ v, v ∈ order ↔ vtx G v) ∧ (∀ v, dvx g v ↔ vtx G v) ∧
    (∀ i u v, arc g i u v ↔ i = 0 ∧ adj G u v ∧ before order u v).
Proof.
  intros Hwf Hl. destruct (degeneracy_inv G Hwf Hl) as (s & Hdeg & HI & Hord).
  assert (NoDup (reverse (dgn_order s))) as Hnd by (rewrite reverse_Permutation; apply HI).
  assert (∀ v, v ∈ reverse (dgn_order s) ↔ vtx G v) as Hel by (intros v; rewrite elem_of_reverse; apply Hord).
  destruct (orient_gen G _ _ _ _ (graph_wf_weak G Hwf) Hl Hdeg Hnd Hel) as (g & Hg & H1 & H2 & H3 & H4 & H5).
  eexists g, _, _, _, _. split; [exact Hg|]. split; [exact Hdeg|]. split_and!; assumption.
Qed.

Lemma edge_subgraph_spec g es : ∃ h, df_edge_subgraph g es = Ok h ∧ dtf_wf h ∧ df_depth h = 1 ∧
  (∀ i u v, arc h i u v ↔ i = 0 ∧ (∃ j, arc g j u v) ∧ ((u, v) ∈ es ∨ (v, u) ∈ es)) ∧
  (dtf_wf g → ∀ v, dvx h v ↔ dvx g v).
Proof.
  unfold df_edge_subgraph.
  set (step := λ (h : dtfgraph) (e : N * N),
    h ← (if df_has_arc g e.1 e.2 then df_add_arc h e.1 e.2 1 else Ok h);
    if df_has_arc g e.2 e.1 then df_add_arc h e.2 e.1 1 else Ok h).
  assert (∀ u v, dadds 0 (λ h, if df_has_arc g u v then df_add_arc h u v 1 else Ok h) (λ x, (∃ j, arc g j u v) ∧ (x = u ∨ x = v))
    (λ x y, (∃ j, arc g j u v) ∧ x = u ∧ y = v)) as H1.
  { intros u v. destruct (df_has_arc g u v) eqn:E.
    - apply df_has_arc_spec in E. eapply dadds_ext; [apply (dadds_arc 0 u v)|done|tauto|tauto].
    - assert (¬ ∃ j, arc g j u v) as Hn by (rewrite <- df_has_arc_spec; congruence).
      eapply dadds_ext; [apply (dadds_ret 0)|done|tauto|tauto]. }
  pose proof (dadds_seq 0 _ _ _ _ _ _ (dadds_vertices 0 (df_vertices g))
    (dadds_fold 0 step es _ _ (λ e _, dadds_seq 0 _ _ _ _ _ _ (H1 e.1 e.2) (H1 e.2 e.1)))) as Hf.
  destruct (Hf df_new new_wf eq_refl) as (h & Hok & Hh & Hd & _ & Harc & Hvx); [done|].
  exists h. split; [exact Hok|]. split_and!; [done|done| |].
  - intros i u v. rewrite Harc. cbn. split.
    + intros [(? & ? & ? & _)|[-> [[]|([a b] & Hab & [(Ha & -> & ->)|(Ha & -> & ->)])]]]; [done| |]; auto.
    + intros (-> & Ha & [He|He]); right; split; [done| |done|]; right; eexists (_, _); split; [exact He|cbn; auto|exact He|cbn; auto].
  - intros Hg v. rewrite Hvx, df_vertices_spec. split; [|auto].
    intros [[n Hn]|[?|([a b] & _ & [[[j Ha] He]|[[j Ha] He]])]]; [done|done| |]; cbn in He, Ha;
      (destruct He as [->| ->]; [by eapply arc_tail|by eapply arc_head]).
Qed.

(** ** The augmentation invariant *)
Record aug_inv (G : graph) (g : dtfgraph) : Prop := {
  ai_wf : dtf_wf g;
  ai_depth : 1 ≤ df_depth g ≤ length (df_ms g);
  ai_disj : disjoint_layers g;
  ai_noloop : ∀ i u, ¬ arc g i u u;
  ai_within : ∀ i u v, arc g i u v → within (adj G) (S i) u v;
  ai_vtx : ∀ v, dvx g v ↔ vtx G v;
}.

(** The orientation oracle used by [augment] for the fraternal edges. *)
Definition od_ok (od : editgraph → res dtfgraph) : Prop :=
  ∀ h, eg_wf h → loopless (eg_graph h) → ∃ fd, od h = Ok fd ∧ dtf_wf fd ∧ 1 ≤ df_depth fd ∧ ∀ u v, arc fd 0 u v → ea h u v.

Lemma od_orient : od_ok (λ h, df_orient (eg_graph h)).
Proof.
  intros h Hh Hl. destruct (orient_spec (eg_graph h) (eg_graph_wf h Hh) Hl) as (g & ? & ? & ? & ? & Hok & _ & Hg & Hd & _ & _ & _ & _ & Ha).
  exists g. split_and!; [done|done|lia|]. intros u v (_ & ? & _)%Ha. done.
Qed.

Section augment.
Context (G : graph) (Hwf : graph_wf G).
Notation W := (within (adj G)).

Lemma W_sym n u v : W n u v → W n v u.
Proof. apply within_sym. intros x y. apply (wf_adj_sym G Hwf). Qed.

(** Transitive tails. *)
Lemma trans_tails_spec g u d : dtf_wf g → dvx g u → df_depth g = S (S d) →
  ∃ X, df_trans_tails g u (S (S d)) = Ok X ∧
    ∀ x, x ∈ X ↔ x ≠ u ∧ (¬ ∃ i, arc g i x u) ∧ ∃ i j y, i + j = d ∧ arc g i y u ∧ arc g j x y.
Proof.
  intros Hg Hu Hd. unfold df_trans_tails.
  destruct (fold_res_inv (λ (c : gset N) wy,
      ys ← df_in_at g u wy;
      fold_res (λ c y, xs ← df_in_at g y (S (S d) - wy); Ok (c ∪ list_to_set xs)) ys c)
    (λ l (c : gset N), ∀ x, x ∈ c ↔ ∃ i j y, S i ∈ l ∧ i + j = d ∧ arc g i y u ∧ arc g j x y) (seq 1 (S (S d) - 1)) ∅) as (c & Hc & HI).
  { set_solver. }
  { intros l1 wy l2 c Heq HI. assert (wy ∈ seq 1 (S (S d) - 1)) as Hwy by (rewrite Heq; set_solver).
    apply elem_of_seq in Hwy. destruct wy as [|i]; [lia|].
    destruct (in_at_spec g u i Hg Hu) as (ys & Hys & _ & HY); [lia|]. rewrite Hys. cbn [mbind res_bind].
    assert (S (S d) - S i = S (d - i)) as -> by lia.
    destruct (fold_res_inv (λ c y, xs ← df_in_at g y (S (d - i)); Ok (c ∪ list_to_set xs))
      (λ l (c' : gset N), ∀ x, x ∈ c' ↔ x ∈ c ∨ ∃ y, y ∈ l ∧ arc g (d - i) x y) ys c) as (c' & Hc' & HI').
    { set_solver. }
    { intros k1 y k2 c' Hk HI'. assert (y ∈ ys) as Hy by (rewrite Hk; set_solver). apply HY in Hy.
      destruct (in_at_spec g y (d - i) Hg (arc_tail _ _ _ _ Hg Hy)) as (xs & Hxs & _ & HX); [lia|].
      rewrite Hxs. cbn [mbind res_bind]. eexists; split; [done|]. intros x.
      rewrite elem_of_union, elem_of_list_to_set, HX, HI'. setoid_rewrite elem_of_app. setoid_rewrite elem_of_list_singleton. naive_solver. }
    exists c'. split; [done|]. intros x. rewrite HI', HI. setoid_rewrite elem_of_app. setoid_rewrite elem_of_list_singleton. split.
    - intros [(i' & j & y & ? & ? & ? & ?)|(y & Hy%HY & Hx)]; [exists i', j, y; auto|]. exists i, (d - i), y. split_and!; [auto|lia|done|done].
    - intros (i' & j & y & [?|[= ->]] & ? & Hy & ?); [left; eauto 10|]. right. exists y. split; [by apply HY|].
      by assert (d - i = j) as -> by lia. }
  change (fold_res (λ (c : gset N) wy,
      ys ← df_in_at g u wy;
      fold_res (λ c y, xs ← df_in_at g y (S (S d) - wy); Ok (c ∪ list_to_set xs)) ys c)
     (seq 1 (S (S d) - 1)) ∅ = Ok c) in Hc.
  rewrite Hc. cbn [mbind res_bind].
  destruct (in_neighbours_spec g u Hu) as (Nu & -> & HNu). cbn [mbind res_bind]. eexists. split; [done|].
  intros x. rewrite elem_of_difference, HI, elem_of_union, elem_of_singleton, elem_of_list_to_set, HNu. split.
  - intros ((i & j & y & _ & ? & ? & ?) & Hn). split_and!; [tauto|tauto|eauto 10].
  - intros (Hne & Hn & i & j & y & ? & ? & ?). split; [|tauto]. exists i, j, y. split_and!; [|done..]. apply elem_of_seq. lia.
Qed.

(** Fraternal pairs: vertices with a common head whose weights add up. *)
Lemma foldl_pairs_spec (P : N * N → bool) (l : list (N * N)) (acc : gset (N * N)) (p : N * N) :
  p ∈ foldl (λ acc q, if negb (P q) then {[(q.1, q.2)]} ∪ acc else acc) acc l ↔ p ∈ acc ∨ (p ∈ l ∧ P p = false).
Proof.
  revert acc. induction l as [|q l IH]; intros acc; cbn; [set_solver|]. rewrite IH, elem_of_cons.
  destruct q as [a b]. cbn. destruct (P (a, b)) eqn:E; cbn.
  - split; [naive_solver|]. intros [?|[[->|?] ?]]; [auto|congruence|auto].
  - rewrite elem_of_union, elem_of_singleton. split; [intros [[->|?]|?]|intros [?|[[->|?] ?]]]; auto; tauto.
Qed.
Lemma foldl_ys_spec (P : N → bool) (x : N) (l : list N) (acc : gset (N * N)) (p : N * N) :
  p ∈ foldl (λ acc y, if negb (P y) then {[(x, y)]} ∪ acc else acc) acc l ↔ p ∈ acc ∨ ∃ y, y ∈ l ∧ p = (x, y) ∧ P y = false.
Proof.
  revert acc. induction l as [|y l IH]; intros acc; cbn; [set_solver|]. rewrite IH. setoid_rewrite elem_of_cons.
  destruct (P y) eqn:E; cbn.
  - split; [naive_solver|]. intros [?|(z & [->|?] & -> & ?)]; [auto|congruence|eauto].
  - rewrite elem_of_union, elem_of_singleton. split; [intros [[->|?]|(z & ? & ? & ?)]|intros [?|(z & [->|?] & -> & ?)]]; auto; eauto 10.
Qed.

Lemma frat_pairs2_spec g u : dtf_wf g → dvx g u → 1 ≤ df_depth g →
  ∃ P, df_frat_pairs2 g u = Ok P ∧
    (∀ x y, (x, y) ∈ P → x ≠ y ∧ df_adjacent g x y = false ∧ arc g 0 x u ∧ arc g 0 y u) ∧
    (∀ x y, x ≠ y → arc g 0 x u → arc g 0 y u → df_adjacent g x y = false → (x, y) ∈ P ∨ (y, x) ∈ P).
Proof.
  intros Hg Hu Hd. unfold df_frat_pairs2. destruct (in_at_spec g u 0 Hg Hu) as (l & -> & Hnd & Hl); [lia|].
  cbn [mbind res_bind]. eexists. split; [done|].
  assert (∀ p, p ∈ foldl (λ acc p, if negb (df_adjacent g p.1 p.2) then {[(p.1, p.2)]} ∪ acc else acc) (∅ : gset (N * N)) (combinations2 l)
     ↔ p ∈ (∅ : gset (N * N)) ∨ (p ∈ combinations2 l ∧ df_adjacent g p.1 p.2 = false)) as Hs.
  { intros p. apply (foldl_pairs_spec (λ p, df_adjacent g p.1 p.2)). }
  split.
  - intros x y [?|[Hp Ha]]%Hs; [set_solver|]. cbn in Ha.
    destruct (elem_of_combinations2_1 l x y Hnd Hp) as (? & ? & ?). split_and!; [done|done|by apply Hl|by apply Hl].
  - intros x y Hne Hx%Hl Hy%Hl Ha. rewrite !Hs. cbn.
    destruct (proj2 (elem_of_combinations2 l x y Hnd) (conj Hx (conj Hy Hne))); [left|right]; right; split; auto.
    rewrite <- Ha. unfold df_adjacent. apply orb_comm.
Qed.
Lemma frat_pairs_spec g u d : dtf_wf g → dvx g u → df_depth g = S (S (S d)) →
  ∃ P, df_frat_pairs g u (S (S (S d))) = Ok P ∧
    (∀ x y, (x, y) ∈ P ↔ df_adjacent g x y = false ∧ ((arc g 0 x u ∧ arc g (S d) y u) ∨ (arc g (S d) x u ∧ arc g 0 y u))).
Proof.
  intros Hg Hu Hd. unfold df_frat_pairs, assert_res. cbn [Nat.eqb negb mbind res_bind].
  change (sub_checked (S (S (S d))) 1) with (Ok (S (S d))). cbn [mbind res_bind].
  assert (∀ i j (acc : gset (N * N)), i + j = S d → ∃ acc' : gset (N * N),
    (wy ← sub_checked (S (S (S d))) (S i); xs ← df_in_at g u (S i);
      fold_res (λ acc x, ys ← df_in_at g u wy;
        Ok (foldl (λ acc y, if negb (df_adjacent g x y) then {[(x, y)]} ∪ acc else acc) acc ys)) xs acc) = Ok acc' ∧
    ∀ x y, (x, y) ∈ acc' ↔ (x, y) ∈ acc ∨ (df_adjacent g x y = false ∧ arc g i x u ∧ arc g j y u)) as Hone.
  { intros i j acc Hij. unfold sub_checked. rewrite (proj2 (Nat.leb_le (S i) (S (S (S d))))) by lia. cbn [mbind res_bind].
    assert (S (S (S d)) - S i = S j) as -> by lia.
    destruct (in_at_spec g u i Hg Hu) as (xs & -> & _ & HX); [lia|]. cbn [mbind res_bind].
    destruct (in_at_spec g u j Hg Hu) as (ys & Hys & _ & HY); [lia|].
    destruct (fold_res_inv (λ (acc : gset (N * N)) x, ys ← df_in_at g u (S j);
        Ok (foldl (λ acc y, if negb (df_adjacent g x y) then {[(x, y)]} ∪ acc else acc) acc ys))
      (λ l (c : gset (N * N)), ∀ x y, (x, y) ∈ c ↔ (x, y) ∈ acc ∨ (x ∈ l ∧ y ∈ ys ∧ df_adjacent g x y = false)) xs acc) as (c & Hc & HI).
    { set_solver. }
    { intros l1 x l2 c Heq HI. rewrite Hys. cbn [mbind res_bind]. eexists. split; [done|].
      intros a b. rewrite (foldl_ys_spec (λ y, df_adjacent g x y)), HI. setoid_rewrite elem_of_app. setoid_rewrite elem_of_list_singleton. naive_solver. }
    exists c. split; [done|]. intros x y. rewrite HI, HX, HY. tauto. }
  cbn [fold_res].
  destruct (Hone 0 (S d) ∅ eq_refl) as (c & Hc & HI). rewrite Hc. cbn [mbind res_bind].
  destruct (Hone (S d) 0 c) as (c' & Hc' & HI'); [lia|]. rewrite Hc'. cbn [mbind res_bind].
  exists c'. split; [done|]. intros x y. rewrite HI', HI. assert ((x, y) ∉ (∅ : gset (N * N))) by set_solver. tauto.
Qed.

(** The pairs collected in one round of weight [d+2]. *)
Lemma collect_spec g d : dtf_wf g → disjoint_layers g → df_depth g = S (S d) →
  ∃ T h, df_collect g (S (S d)) = Ok (T, h) ∧ eg_wf h ∧
    (∀ x u, (x, u) ∈ T ↔ x ≠ u ∧ (¬ ∃ i, arc g i x u) ∧ ∃ i j y, i + j = d ∧ arc g i y u ∧ arc g j x y) ∧
    (∀ x y, ea h x y → x ≠ y ∧ df_adjacent g x y = false ∧ ∃ i j u, i + j = d ∧ arc g i x u ∧ arc g j y u).
Proof.
  intros Hg Hdis Hd. unfold df_collect.
  set (TT := λ x u, x ≠ u ∧ (¬ ∃ i, arc g i x u) ∧ ∃ i j y, i + j = d ∧ arc g i y u ∧ arc g j x y).
  set (FF := λ x y, x ≠ y ∧ df_adjacent g x y = false ∧ ∃ i j u, i + j = d ∧ arc g i x u ∧ arc g j y u).
  assert (∀ x y, df_adjacent g x y = df_adjacent g y x) as Hcomm by (intros; apply orb_comm).
  assert (∀ x y, FF x y → FF y x) as FFs.
  { intros x y (? & Ha & i & j & u & ? & ? & ?). split_and!; [done|by rewrite Hcomm|]. exists j, i, u. split_and!; [lia|done|done]. }
  destruct (fold_res_inv (λ (s : gset (N * N) * editgraph) u,
    X ← df_trans_tails g u (S (S d));
    P ← (if S (S d) =? 2 then df_frat_pairs2 g u else df_frat_pairs g u (S (S d)));
    h ← fold_res (λ h p, r ← eg_add_edge h p.1 p.2; Ok r.1) (hash_iter 41 P) s.2;
    Ok (s.1 ∪ list_to_set ((λ x, (x, u)) <$> hash_iter 42 X), h))
    (λ l s, eg_wf s.2 ∧ (∀ x u, (x, u) ∈ s.1 ↔ u ∈ l ∧ TT x u) ∧ (∀ x y, ea s.2 x y → FF x y)) (df_vertices g) (∅, eg_new)) as ([T h] & HT & HI).
  { cbn. split_and!; [apply eg_new_wf|set_solver|]. intros x y Hx. by apply eg_new_ea in Hx. }
  { intros l1 u l2 [T h] Heq (Hh & HTT & HFF). cbn [fst snd] in *.
    assert (dvx g u) as Hu by (apply df_vertices_spec; rewrite Heq; set_solver).
    destruct (trans_tails_spec g u d Hg Hu Hd) as (X & HX & HXX). rewrite HX. cbn [mbind res_bind].
    assert (∃ P, (if S (S d) =? 2 then df_frat_pairs2 g u else df_frat_pairs g u (S (S d))) = Ok P ∧ ∀ x y, (x, y) ∈ P → FF x y) as (P & HP & HPP).
    { destruct d as [|d]; cbn [Nat.eqb].
      - destruct (frat_pairs2_spec g u Hg Hu) as (P & HP & HP1 & _); [lia|]. exists P. split; [done|].
        intros x y (? & ? & ? & ?)%HP1. split_and!; [done|done|]. by exists 0, 0, u.
      - destruct (frat_pairs_spec g u d Hg Hu Hd) as (P & HP & HP1). exists P. split; [done|].
        intros x y (? & Ha)%HP1. split_and!; [|done|].
        + intros ->. destruct Ha as [[H1 H2]|[H1 H2]]; specialize (Hdis _ _ _ _ H1 H2); lia.
        + destruct Ha as [[? ?]|[? ?]]; [exists 0, (S d), u|exists (S d), 0, u]; split_and!; done || lia. }
    rewrite HP. cbn [mbind res_bind].
    destruct (adds_fold (λ h (e : N * N), r ← eg_add_edge h e.1 e.2; Ok r.1) (hash_iter 41 P) _ _ (λ e _, adds_edge e.1 e.2) _ Hh) as (h' & -> & Hh' & _ & HE).
    cbn [mbind res_bind]. eexists. split; [done|]. cbn [fst snd]. split_and!; [done| |].
    - intros x w. rewrite elem_of_union, HTT, elem_of_list_to_set, elem_of_list_fmap. setoid_rewrite elem_of_hash_iter. setoid_rewrite HXX.
      rewrite elem_of_app, elem_of_list_singleton. fold (TT x w). split.
      + intros [[? ?]|(y & [= -> ->] & HTx)]; [auto|]. split; [auto|]. exact HTx.
      + intros [[?| ->] HTx]; [auto|]. right. exists x. split; [done|exact HTx].
    - intros x y Hx. rewrite HE in Hx. destruct Hx as [?%HFF|([a b] & Hab%elem_of_hash_iter%HPP & Hx)]; [done|]. cbn in Hx.
      destruct Hx as [[-> ->]|[-> ->]]; auto. }
  destruct HI as (Hh & HTT & HFF). cbn [fst snd] in *. exists T, h. split; [exact HT|]. split_and!; [done| |exact HFF].
  intros x u. rewrite HTT, df_vertices_spec. fold (TT x u). split; [tauto|]. intros Ht. split; [|done].
  destruct Ht as (_ & _ & i & j & y & _ & Ha & _). by eapply arc_head.
Qed.

(** Why a round of weight [d+2] adds an arc: the arcs it follows from have weights adding up to [d+2], and
    a fraternal arc joins two vertices that were not joined before. *)
Definition arc_reason (g : dtfgraph) (d : nat) (x y : N) : Prop :=
  (∃ i j z, i + j = d ∧ arc g i x z ∧ arc g j z y) ∨
  ((¬ ∃ k, arc g k y x) ∧ ∃ i j z, i + j = d ∧ arc g i x z ∧ arc g j y z).

(** One round. *)
Lemma augment_step_spec od g d : od_ok od → aug_inv G g → df_depth g = S d →
  ∃ g', df_augment_step od g = Ok g' ∧ aug_inv G g' ∧ df_depth g' = S (S d) ∧
    (∀ i x y, arc g i x y → arc g' i x y) ∧
    (∀ i x y, arc g' i x y → arc g i x y ∨ (i = S d ∧ ¬ ∃ j, arc g j x y)) ∧
    (∀ i j x y z, i + j = d → arc g i y z → arc g j x y → x ≠ z → ∃ k, arc g' k x z) ∧
    (∀ i x y, arc g' i x y → arc g i x y ∨ arc_reason g d x y).
Proof.
  intros Hod Hinv Hd. pose proof (ai_wf G g Hinv) as Hg. pose proof (ai_depth G g Hinv) as Hdm.
  unfold df_augment_step. set (g0 := df_reserve g (df_depth g + 1)).
  assert (dtf_wf g0) as Hg0 by by apply reserve_wf.
  assert (df_depth g0 = S (S d)) as Hd0 by (unfold g0; rewrite reserve_depth; lia).
  assert (S (S d) ≤ length (df_ms g0)) as Hm0.
  { unfold g0. rewrite reserve_ms. destruct (Nat.ltb_spec (df_depth g) (df_depth g + 1)); [|lia]. rewrite app_length. cbn. lia. }
  assert (∀ i x y, arc g0 i x y ↔ arc g i x y) as Ha0 by (intros; apply arc_reserve).
  assert (∀ x, dvx g0 x ↔ dvx g x) as Hv0 by (intros; apply dvx_reserve).
  assert (disjoint_layers g0) as Hdis0. { intros i j x y. rewrite !Ha0. apply (ai_disj G g Hinv). }
  clearbody g0. cbn zeta. rewrite Hd0.
  destruct (collect_spec g0 d Hg0 Hdis0 Hd0) as (T & h & -> & Hh & HT & HF). cbn [mbind res_bind fst snd].
  destruct (fold_res_inv (λ (s : dtfgraph * editgraph) (a : N * N),
      h ← df_add_arc s.1 a.1 a.2 (df_depth s.1); r ← eg_remove_edge s.2 a.1 a.2; Ok (h, r.1))
    (λ l s, dtf_wf s.1 ∧ df_depth s.1 = S (S d) ∧ length (df_ms s.1) = length (df_ms g0) ∧
      (∀ j x y, arc s.1 j x y ↔ arc g0 j x y ∨ (j = S d ∧ (x, y) ∈ l)) ∧
      (∀ x, dvx s.1 x ↔ dvx g0 x) ∧
      eg_wf s.2 ∧ (∀ x y, ea s.2 x y ↔ ea h x y ∧ (x, y) ∉ l ∧ (y, x) ∉ l)) (hash_iter 43 T) (g0, h)) as ([g1 h1] & Hok1 & HI1).
  { cbn. split_and!; [done|done|done|set_solver|done|done|set_solver]. }
  { intros l1 [a b] l2 [g1 h1] Heq (Hg1 & Hd1 & Hm1 & Ha1 & Hv1 & Hh1 & He1). cbn [fst snd] in *.
    assert ((a, b) ∈ T) as Hab by (rewrite <- (elem_of_hash_iter 43), Heq; set_solver).
    apply HT in Hab as (_ & _ & i & j & y & _ & Hay & Hax).
    rewrite Hd1. destruct (dadds_arc (S d) a b g1 Hg1 Hd1) as (g2 & -> & Hg2 & Hd2 & Hm2 & Ha2 & Hv2); [lia|]. cbn [mbind res_bind].
    destruct (eg_remove_edge_spec h1 a b Hh1) as (h2 & -> & Hh2 & _ & He2). cbn [mbind res_bind fst].
    eexists. split; [done|]. cbn [fst snd]. split_and!; [done|done|congruence| | |done|].
    - intros k x z. rewrite Ha2, Ha1, elem_of_app, elem_of_list_singleton, pair_equal_spec. tauto.
    - intros x. rewrite Hv2, Hv1. split; [|auto]. intros [?|[->| ->]]; [done|by eapply arc_tail|by eapply arc_head].
    - intros x z. rewrite He2, He1. rewrite !elem_of_app, !elem_of_list_singleton, !pair_equal_spec. tauto. }
  cbn [fst snd] in HI1. destruct HI1 as (Hg1 & Hd1 & Hm1 & Ha1 & Hv1 & Hh1 & He1).
  change (fold_res (λ (s : dtfgraph * editgraph) (a : N * N),
      h ← df_add_arc s.1 a.1 a.2 (df_depth s.1); r ← eg_remove_edge s.2 a.1 a.2; Ok (h, r.1)) (hash_iter 43 T) (g0, h) = Ok (g1, h1)) in Hok1.
  rewrite Hok1. cbn [mbind res_bind fst snd].
  destruct (Hod h1 Hh1) as (fd & -> & Hfd & Hdf & Hfa).
  { intros x Hx. change (ea h1 x x) in Hx. apply He1 in Hx as [(Hne & _)%HF _]. done. }
  cbn [mbind res_bind].
  destruct (arcs_at_spec fd 0 Hfd) as (es & -> & _ & Hes); [lia|]. cbn [mbind res_bind].
  destruct (dadds_fold (S d) (λ h a, df_add_arc h a.1 a.2 (S (S d))) es _ _ (λ a _, dadds_arc (S d) a.1 a.2) g1 Hg1 Hd1) as (g2 & Hok2 & Hg2 & Hd2 & Hm2 & Ha2 & Hv2); [lia|].
  assert (fold_res (λ h a, df_add_arc h a.1 a.2 (df_depth h)) es g1 = Ok g2) as ->.
  { clear -Hok2 Hg1 Hd1 Hm1 Hm0. rewrite <- Hm1 in Hm0. revert g1 Hg1 Hd1 Hm0 Hok2 Hm1. induction es as [|[a b] es IH]; intros g1 Hg1 Hd1 Hm0; [done|].
    cbn [fold_res fst snd]. rewrite Hd1. destruct (dadds_arc (S d) a b g1 Hg1 Hd1 Hm0) as (g3 & -> & Hg3 & Hd3 & Hm3 & _). cbn [mbind res_bind].
    intros Hok Hm1. apply IH; [done|done|lia|done|lia]. }
  assert (∀ a b, (a, b) ∈ es → ea h a b ∧ (a, b) ∉ T ∧ (b, a) ∉ T) as Hesp.
  { intros a b [_ (Hx & ? & ?)%Hfa%He1]%Hes. split_and!; [|by rewrite <- (elem_of_hash_iter 43)..]. by apply ea_sym. }
  assert (∀ k x y, arc g2 k x y ↔ arc g k x y ∨ (k = S d ∧ ((x, y) ∈ T ∨ (x, y) ∈ es))) as Ha.
  { intros k x y. rewrite Ha2, Ha1, Ha0, elem_of_hash_iter. split.
    - intros [[?|[? ?]]|(-> & [a b] & ? & ? & ?)]; cbn in *; subst; auto.
    - intros [?|[-> [?|?]]]; [auto|auto|]. right. split; [done|]. by exists (x, y). }
  assert (∀ x y, (x, y) ∈ T ∨ (x, y) ∈ es → x ≠ y ∧ (¬ ∃ j, arc g j x y) ∧ within (adj G) (S (S d)) x y) as Hnew.
  { intros x y [(Hne & Hn & i & j & z & Hij & H1 & H2)%HT|(Hx & _ & _)%Hesp].
    - setoid_rewrite Ha0 in Hn. rewrite Ha0 in H1, H2. split_and!; [done|done|].
      apply (ai_within G g Hinv) in H1, H2. pose proof (within_trans _ _ _ _ _ _ H2 H1) as Hw.
      eapply within_mono; [|exact Hw]. lia.
    - apply HF in Hx as (Hne & Hna & i & j & z & Hij & H1 & H2). rewrite Ha0 in H1, H2. split_and!; [done| |].
      + intros [k Hk]. rewrite <- Ha0 in Hk. assert (df_adjacent g0 x y = true); [|congruence]. apply df_adjacent_spec. eauto.
      + apply (ai_within G g Hinv) in H1, H2. apply W_sym in H2. pose proof (within_trans _ _ _ _ _ _ H1 H2) as Hw.
        eapply within_mono; [|exact Hw]. lia. }
  exists g2. split; [done|]. split; [|split_and!; [done| | | |]].
  - split.
    + done.
    + lia.
    + intros i j x y. rewrite !Ha. intros [H1|[-> H1]] [H2|[-> H2]]; [by eapply (ai_disj G g Hinv)| | |done].
      * destruct (Hnew _ _ H2) as (_ & [] & _). eauto.
      * destruct (Hnew _ _ H1) as (_ & [] & _). eauto.
    + intros i x. rewrite Ha. intros [Hx|[_ Hx]]; [by eapply (ai_noloop G g Hinv)|]. by destruct (Hnew _ _ Hx) as [? _].
    + intros i x y. rewrite Ha. intros [Hx|[-> Hx]]; [by apply (ai_within G g Hinv)|]. by destruct (Hnew _ _ Hx) as (_ & _ & ?).
    + intros x. rewrite Hv2, Hv1, Hv0, <- (ai_vtx G g Hinv). split; [|auto]. intros [?|([a b] & Hab & Hx)]; [done|].
      apply Hesp in Hab as ((_ & _ & i & j & u & _ & H1 & H2)%HF & _). apply (arc_tail _ _ _ _ Hg0) in H1, H2. rewrite Hv0 in H1, H2.
      cbn in Hx. destruct Hx as [->| ->]; done.
  - intros i x y Hx. rewrite Ha. auto.
  - intros i x y Hx. rewrite Ha in Hx. destruct Hx as [?|[-> Hx]]; [auto|]. right. split; [done|]. by destruct (Hnew _ _ Hx) as (_ & ? & _).
  - intros i j x y z Hij H1 H2 Hne. destruct (df_has_arc g x z) eqn:E.
    + apply df_has_arc_spec in E as [k Hk]. exists k. rewrite Ha. auto.
    + assert (¬ ∃ k, arc g k x z) as Hn by (rewrite <- df_has_arc_spec; congruence).
      exists (S d). rewrite Ha. right. split; [done|]. left. apply HT. setoid_rewrite Ha0. split_and!; [done|done|eauto 10].
  - intros k x y Hx. rewrite Ha in Hx. destruct Hx as [?|[_ [(_ & _ & i & j & z & Hij & H1 & H2)%HT|(Hx & _ & _)%Hesp]]]; [by left|right; left|right; right].
    + rewrite Ha0 in H1, H2. exists j, i, z. split_and!; [lia|done|done].
    + apply HF in Hx as (_ & Hna & i & j & z & Hij & H1 & H2). rewrite Ha0 in H1, H2. split; [|exists i, j, z; split_and!; done].
      intros [l Hk]. rewrite <- Ha0 in Hk. assert (df_adjacent g0 x y = true); [|congruence]. apply df_adjacent_spec. eauto.
Qed.
End augment.
End with_iter.
