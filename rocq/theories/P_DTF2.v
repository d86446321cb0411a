(** Queries, the arc iterator, orientation and edge subgraphs of DTFGraph. *)
From Verif Require Import Base Spec M_Graph M_Iterators M_EditGraph M_Operations M_Algorithms M_OrdGraph M_DTF
  S_Graph P_EditGraph P_EditGraph2 P_Graph P_Iterators P_Adds P_OrdGraph P_Degeneracy P_DTF.

(** ** Building by adding arcs of one weight *)
Definition dadds (d : nat) (f : dtfgraph → res dtfgraph) (PV : N → Prop) (PA : N → N → Prop) : Prop :=
  ∀ g, dtf_wf g → df_depth g = S d → S d ≤ length (df_ms g) → ∃ g', f g = Ok g' ∧ dtf_wf g' ∧ df_depth g' = S d ∧
    length (df_ms g') = length (df_ms g) ∧
    (∀ j x y, arc g' j x y ↔ arc g j x y ∨ (j = d ∧ PA x y)) ∧ (∀ x, dvx g' x ↔ dvx g x ∨ PV x).

Lemma dadds_ext d f f' PV PA PV' PA' :
  dadds d f PV PA → (∀ g, df_depth g = S d → f g = f' g) → (∀ x, PV x ↔ PV' x) → (∀ x y, PA x y ↔ PA' x y) → dadds d f' PV' PA'.
Proof.
  intros Hf He HV HA g Hg Hd Hm. destruct (Hf g Hg Hd Hm) as (g' & Hok & H1 & H2 & H3 & H4 & H5).
  exists g'. rewrite <- He by done. split_and!; [done..| |].
  - intros j x y. by rewrite H4, HA.
  - intros x. by rewrite H5, HV.
Qed.
Lemma dadds_arc d u v : dadds d (λ g, df_add_arc g u v (S d)) (λ x, x = u ∨ x = v) (λ x y, x = u ∧ y = v).
Proof.
  intros g Hg Hd Hm. assert (df_reserve g (S d) = g) as Hr.
  { unfold df_reserve. rewrite Hd, Nat.ltb_irrefl. rewrite <- Hd. by destruct g. }
  destruct (add_arc_spec g u v d Hg) as (g' & Hok & H1 & H2 & H3 & H4 & H5); [rewrite Hr; lia|].
  rewrite Hr in H3. exists g'. done.
Qed.
Lemma dadds_vertex d u : dadds d (λ g, Ok (df_add_vertex g u)) (λ x, x = u) (λ _ _, False).
Proof.
  intros g Hg Hd Hm. exists (df_add_vertex g u). split_and!; [done|by apply add_vertex_wf|by rewrite add_vertex_depth|by rewrite add_vertex_ms| |].
  - intros j x y. rewrite arc_add_vertex. tauto.
  - intros x. rewrite dvx_add_vertex. tauto.
Qed.
Lemma dadds_ret d : dadds d Ok (λ _, False) (λ _ _, False).
Proof. intros g Hg Hd Hm. exists g. split_and!; [done..| |]; tauto. Qed.
Lemma dadds_seq d f f' PV PA PV' PA' : dadds d f PV PA → dadds d f' PV' PA' →
  dadds d (λ g, f g ≫= f') (λ x, PV x ∨ PV' x) (λ x y, PA x y ∨ PA' x y).
Proof.
  intros Hf Hf' g Hg Hd Hm. destruct (Hf g Hg Hd Hm) as (g1 & -> & H1 & H2 & H3 & H4 & H5). cbn [mbind res_bind].
  destruct (Hf' g1 H1 H2) as (g2 & -> & H1' & H2' & H3' & H4' & H5'); [lia|].
  exists g2. split_and!; [done..|congruence| |].
  - intros j x y. rewrite H4', H4. tauto.
  - intros x. rewrite H5', H5. tauto.
Qed.
Lemma dadds_fold {A} d (f : dtfgraph → A → res dtfgraph) l (PV : A → N → Prop) (PA : A → N → N → Prop) :
  (∀ a, a ∈ l → dadds d (λ g, f g a) (PV a) (PA a)) →
  dadds d (fold_res f l) (λ x, ∃ a, a ∈ l ∧ PV a x) (λ x y, ∃ a, a ∈ l ∧ PA a x y).
Proof.
  induction l as [|a l IH]; intros Hl.
  - eapply dadds_ext; [apply dadds_ret|done|set_solver|set_solver].
  - assert (dadds d (λ h, f h a ≫= fold_res f l) (λ x, PV a x ∨ ∃ b, b ∈ l ∧ PV b x)
       (λ x y, PA a x y ∨ ∃ b, b ∈ l ∧ PA b x y)) as H.
    { apply (dadds_seq d (λ h, f h a)); [apply Hl; set_solver|]. apply IH. set_solver. }
    eapply dadds_ext; [exact H|done| |]; setoid_rewrite elem_of_cons; naive_solver.
Qed.
Lemma dadds_vertices d vs : dadds d (λ g, Ok (foldl df_add_vertex g vs)) (λ x, x ∈ vs) (λ _ _, False).
Proof.
  assert (∀ g, fold_res (λ g u, Ok (df_add_vertex g u)) vs g = Ok (foldl df_add_vertex g vs)) as He.
  { induction vs as [|v vs IH]; intros g; [done|]. cbn. apply IH. }
  eapply dadds_ext; [apply (dadds_fold d (λ g u, Ok (df_add_vertex g u)) vs (λ u x, x = u) (λ _ _ _, False)); intros; apply dadds_vertex|intros; apply He|set_solver|set_solver].
Qed.

Section with_iter.
Context `{HashIter}.

Lemma df_vertices_spec g v : v ∈ df_vertices g ↔ dvx g v.
Proof. unfold df_vertices, dvx. by rewrite elem_of_hash_iter, elem_of_dom. Qed.
Lemma df_vertices_nodup g : NoDup (df_vertices g).
Proof. apply NoDup_hash_iter. Qed.

(** ** In-neighbourhoods *)
Lemma in_at_spec g v i : dtf_wf g → dvx g v → i < df_depth g →
  ∃ l, df_in_at g v (S i) = Ok l ∧ NoDup l ∧ ∀ u, u ∈ l ↔ arc g i u v.
Proof.
  intros Hg [n Hn] Hi. unfold df_in_at, dn_in_at, arc. rewrite Hn. unfold sub_checked.
  cbn [unwrap mbind res_bind Nat.leb]. rewrite Nat.sub_succ, Nat.sub_0_r.
  destruct (dw_len g Hg v n Hn) as (_ & _ & Hl). destruct (lookup_lt_is_Some_2 (dn_in n) i) as [X HX]; [lia|].
  rewrite HX. cbn [unwrap mbind res_bind]. eexists. split; [done|]. split; [apply NoDup_hash_iter|].
  intros u. rewrite elem_of_hash_iter. split; [eauto|]. intros (? & ? & [= <-] & HY & Hu). by simplify_eq.
Qed.
(** Whenever the query answers, it answers correctly. *)
Lemma in_at_inv g v i l : df_in_at g v (S i) = Ok l → NoDup l ∧ dvx g v ∧ ∀ u, u ∈ l ↔ arc g i u v.
Proof.
  unfold df_in_at, dn_in_at, arc, sub_checked. cbn [mbind res_bind Nat.leb]. rewrite Nat.sub_succ, Nat.sub_0_r.
  intros (n & Hn & HH)%bind_ok. apply unwrap_ok in Hn. apply bind_ok in HH as (X & HX & [= <-]). apply unwrap_ok in HX.
  split; [apply NoDup_hash_iter|]. split; [by exists n|].
  intros u. rewrite elem_of_hash_iter, Hn. split; [eauto|]. intros (? & ? & [= <-] & HY & Hu). by simplify_eq.
Qed.

Lemma concat_layers (Xs : list (gset N)) u :
  u ∈ concat (map (hash_iter 40) Xs) ↔ ∃ i X, Xs !! i = Some X ∧ u ∈ X.
Proof.
  rewrite elem_of_list_In, in_concat. split.
  - intros (l & (X & <- & HX%elem_of_list_In)%in_map_iff & Hu%elem_of_list_In).
    apply elem_of_list_lookup in HX as [i Hi]. rewrite elem_of_hash_iter in Hu. eauto.
  - intros (i & X & Hi & Hu). exists (hash_iter 40 X). split; [apply in_map; by eapply elem_of_list_In, elem_of_list_lookup_2|].
    apply elem_of_list_In. by rewrite elem_of_hash_iter.
Qed.
Lemma in_neighbours_spec g v : dvx g v →
  ∃ l, df_in_neighbours g v = Ok l ∧ ∀ u, u ∈ l ↔ ∃ i, arc g i u v.
Proof.
  intros [n Hn]. unfold df_in_neighbours, arc. rewrite Hn. cbn [unwrap mbind res_bind]. eexists. split; [done|].
  intros u. unfold dn_in_neighbours. rewrite concat_layers. split; [intros (i & X & ? & ?); by exists i, n, X|intros (i & ? & X & [= <-] & ? & ?); by exists i, X].
Qed.
Lemma NoDup_concat_layers (Xs : list (gset N)) :
  (∀ i j X Y u, Xs !! i = Some X → Xs !! j = Some Y → u ∈ X → u ∈ Y → i = j) →
  NoDup (concat (map (hash_iter 40) Xs)).
Proof.
  induction Xs as [|X Xs IH]; intros Hd; cbn; [constructor|]. apply NoDup_app. split_and!.
  - apply NoDup_hash_iter.
  - intros u Hu%elem_of_hash_iter. rewrite concat_layers. intros (i & Y & HY & Hu'). by specialize (Hd 0 (S i) X Y u eq_refl HY Hu Hu').
  - apply IH. intros i j Y Z u HY HZ Hu Hu'. specialize (Hd (S i) (S j) Y Z u HY HZ Hu Hu'). lia.
Qed.
Definition disjoint_layers (g : dtfgraph) : Prop := ∀ i j u v, arc g i u v → arc g j u v → i = j.
Lemma in_neighbours_nodup g v l : disjoint_layers g → df_in_neighbours g v = Ok l → NoDup l.
Proof.
  intros Hd. unfold df_in_neighbours. intros (n & Hn & [= <-])%bind_ok. apply unwrap_ok in Hn.
  apply NoDup_concat_layers. intros i j X Y u HX HY Hu Hu'. apply (Hd i j u v); [by exists n, X|by exists n, Y].
Qed.

(** ** Degrees *)
Lemma sum_layers (ks : list nat) (P : nat → N → Prop) :
  (∀ i k, ks !! i = Some k → ∃ X : gset N, (∀ v, v ∈ X ↔ P i v) ∧ k = size X) →
  ∃ E : gset (nat * N), (∀ i v, (i, v) ∈ E ↔ i < length ks ∧ P i v) ∧ sum_list ks = size E.
Proof.
  induction ks as [|k ks IH] using rev_ind; intros Hk.
  - exists ∅. rewrite size_empty. split; [|done]. intros i v. cbn. split; [set_solver|lia].
  - destruct IH as (E & HE & Hs). { intros i c Hc. apply Hk. by apply lookup_app_l_Some. }
    destruct (Hk (length ks) k) as (X & HX & ->). { rewrite lookup_app_r by lia. by rewrite Nat.sub_diag. }
    set (F := list_to_set ((λ v, (length ks, v)) <$> elements X) : gset (nat * N)).
    assert (∀ i v, (i, v) ∈ F ↔ i = length ks ∧ v ∈ X) as HF.
    { intros i v. unfold F. rewrite elem_of_list_to_set, elem_of_list_fmap. setoid_rewrite elem_of_elements. naive_solver. }
    assert (E ## F) as Hdisj.
    { intros [i v] Hi. rewrite HF. intros [-> _]. apply HE in Hi as [? _]. lia. }
    exists (E ∪ F). split.
    + intros i v. rewrite elem_of_union, HE, HF, app_length. cbn. split.
      * intros [[? ?]|[-> Hw%HX]]; split; auto; lia.
      * intros [Hi HP]. destruct (decide (i < length ks)) as [Hlt|Hge]; [by left|]. right.
        assert (i = length ks) as -> by lia. split; [done|]. by apply HX.
    + rewrite size_union by done. unfold F. rewrite size_list_to_set by (apply NoDup_fmap_2; [intros ?? [= ?]; done|apply NoDup_elements]).
      rewrite fmap_length. change (length (elements X)) with (size X).
      rewrite <- Hs. clear. induction ks as [|? ks IHk]; cbn; [lia|]. rewrite IHk. lia.
Qed.

Lemma in_degree_spec g v : dtf_wf g → dvx g v → 1 ≤ df_depth g →
  ∃ l, df_in_neighbours g v = Ok l ∧ df_in_degree g v = Ok (length l).
Proof.
  intros Hg [n Hn] Hd. unfold df_in_neighbours, df_in_degree. rewrite Hn. cbn [unwrap mbind res_bind]. eexists. split; [done|].
  unfold dn_in_degree, dn_in_neighbours, sum1. destruct (dw_len g Hg v n Hn) as (Hl & _ & Hl').
  assert (dn_ind n = size <$> dn_in n) as ->.
  { apply list_eq. intros i. rewrite list_lookup_fmap. destruct (dn_in n !! i) as [X|] eqn:E; cbn.
    - by apply (dw_ind g Hg v).
    - apply lookup_ge_None in E. apply lookup_ge_None. lia. }
  assert (dn_in n ≠ []) as Hne by (intros HE; rewrite HE in Hl'; change (length []) with 0 in Hl'; idtac; lia). clear -Hne.
  assert (sum_list (size <$> dn_in n) = length (concat (map (hash_iter 40) (dn_in n)))) as Hs.
  { clear Hne. induction (dn_in n) as [|X Xs IH]; cbn; [done|]. rewrite app_length, hash_iter_length. lia. }
  rewrite <- Hs. by destruct (dn_in n).
Qed.
Lemma out_degree_spec g v : dtf_wf g → dvx g v → 1 ≤ df_depth g →
  ∃ E : gset (nat * N), (∀ i w, (i, w) ∈ E ↔ arc g i v w) ∧ df_out_degree g v = Ok (size E).
Proof.
  intros Hg [n Hn] Hd. unfold df_out_degree. rewrite Hn. cbn [unwrap mbind res_bind].
  destruct (dw_len g Hg v n Hn) as (_ & Hl & Hl').
  destruct (sum_layers (dn_outd n) (λ i w, arc g i v w)) as (E & HE & Hs).
  { intros i k Hk. by apply (dw_outd g Hg v n). }
  exists E. split.
  - intros i w. rewrite HE. split; [naive_solver|]. intros Ha. split; [|done].
    destruct (dw_src g Hg i v w Ha) as (n' & Hn' & ?). simplify_eq. lia.
  - unfold dn_out_degree, sum1. rewrite Hs. destruct (dn_outd n); [cbn in *; lia|done].
Qed.
Lemma degree_spec g v i o : df_in_degree g v = Ok i → df_out_degree g v = Ok o → df_degree g v = Ok (o + i).
Proof.
  unfold df_in_degree, df_out_degree, df_degree, dn_degree. destruct (df_nodes g !! v) as [n|]; [|done].
  cbn [unwrap mbind res_bind]. by intros -> ->.
Qed.
Lemma num_arcs_at_spec g i : dtf_wf g → i < df_depth g → i < length (df_ms g) →
  ∃ E : gset (N * N), (∀ u v, (u, v) ∈ E ↔ arc g i u v) ∧ df_num_arcs_at g (S i) = Ok (size E).
Proof.
  intros Hg Hi Hm. unfold df_num_arcs_at. destruct (Nat.ltb_spec (df_depth g) (S i)); [lia|].
  unfold sub_checked. cbn [mbind res_bind Nat.leb]. rewrite Nat.sub_succ, Nat.sub_0_r.
  destruct (lookup_lt_is_Some_2 _ _ Hm) as [k Hk]. rewrite Hk. destruct (dw_ms g Hg i k Hk) as (E & HE & ->). eauto.
Qed.
Lemma num_edges_spec g : dtf_wf g → 0 < length (df_ms g) →
  ∃ E : gset (N * N), (∀ u v, (u, v) ∈ E ↔ arc g 0 u v) ∧ df_num_edges g = Ok (size E).
Proof.
  intros Hg Hm. unfold df_num_edges. destruct (lookup_lt_is_Some_2 _ _ Hm) as [k Hk]. rewrite Hk.
  destruct (dw_ms g Hg 0 k Hk) as (E & HE & ->). eauto.
Qed.

(** ** The arc iterator *)
Section arc_iterator.
Context (g : dtfgraph) (mode : option nat).

Inductive rest_arcs : N → list N → list N → list (N * N) → Prop :=
  | ra_nil v it : rest_arcs v it [] (pass_list v it)
  | ra_cons v it v' it' vs l :
      dni_src g mode v' = Ok it' → rest_arcs v' it' vs l →
      rest_arcs v it (v' :: vs) (pass_list v it ++ l).

Lemma dai_scan_eq v it : dai_scan v it = ei_scan v it.
Proof. induction it as [|u it IH]; [done|]. cbn. by destruct (u <? v)%N. Qed.

Lemma dai_loop_drains v it vs l :
  rest_arcs v it vs l → drains (dai_next g mode) (Dai vs v (Some it)) l.
Proof.
  revert v it l. induction vs as [|v' vs IH]; intros v it l Hre.
  - inversion Hre; subst. clear Hre. remember (length it) as n eqn:Hn.
    revert it Hn. induction n as [n IHn] using lt_wf_ind. intros it ->.
    destruct (ei_scan v it) as [[u|] it'] eqn:E.
    + rewrite (ei_scan_some _ _ _ _ E). rewrite <- dai_scan_eq in E. econstructor; [cbn; rewrite E; done|].
      apply (IHn (length it')); [|done]. rewrite dai_scan_eq in E.
      clear -E. induction it as [|x it IH]; cbn in *; [done|].
      destruct (N.ltb_spec x v); [specialize (IH E); lia|]. simplify_eq. lia.
    + destruct (ei_scan_none _ _ _ E) as [-> ->]. rewrite <- dai_scan_eq in E. econstructor; cbn. by rewrite E.
  - inversion Hre as [|? ? ? it1 ? l' Hnb Hre']; subst. clear Hre.
    remember (length it) as n eqn:Hn.
    revert it Hn. induction n as [n IHn] using lt_wf_ind. intros it ->.
    destruct (ei_scan v it) as [[u|] it'] eqn:E.
    + rewrite (ei_scan_some _ _ _ _ E). rewrite <- dai_scan_eq in E. cbn [app]. econstructor; [cbn; rewrite E; done|].
      apply (IHn (length it')); [|done]. rewrite dai_scan_eq in E.
      clear -E. induction it as [|x it IH]; cbn in *; [done|].
      destruct (N.ltb_spec x v); [specialize (IH E); lia|]. simplify_eq. lia.
    + destruct (ei_scan_none _ _ _ E) as [-> ->]. rewrite <- dai_scan_eq in E. cbn [app].
      pose proof (IH _ _ _ Hre') as Hd.
      inversion Hd as [s s' Hnx|s s' x l'' Hnx Hd']; subst; cbn in Hnx.
      * eapply drains_nil. cbn. rewrite E, Hnb. cbn. exact Hnx.
      * eapply drains_cons; [cbn; rewrite E, Hnb; cbn; exact Hnx|done].
Qed.

Lemma arcs_rest v it vs l ls :
  dni_src g mode v = Ok it →
  Forall2 (λ v y, (dni_src g mode v ≫= λ Nv : list N, Ok (pass_list v Nv)) = Ok y) vs ls →
  l = pass_list v it ++ concat ls →
  rest_arcs v it vs l.
Proof.
  intros Hv Hls ->. revert v it Hv. induction Hls as [|v' y vs ls Hy Hls IH]; intros v it Hv; cbn.
  - rewrite app_nil_r. constructor.
  - apply bind_ok in Hy as (it' & Hn & [= <-]). econstructor; [done|]. by apply IH.
Qed.

Lemma df_arcs_drains l :
  df_arcs_list g mode = Ok l → ∃ s, dai_new g mode = Ok s ∧ drains (dai_next g mode) s l.
Proof.
  unfold df_arcs_list, dai_new, dai_advance. intros (ls & Hls & [= <-])%bind_ok.
  apply mapM_res_ok in Hls. cbn [dai_vs dai_cur].
  inversion Hls as [|v y vs ls' Hy Hls']; subst; cbn.
  - eexists; split; [done|]. by econstructor.
  - apply bind_ok in Hy as (it & Hn & [= <-]). rewrite Hn. cbn. eexists; split; [done|].
    apply dai_loop_drains. by eapply arcs_rest.
Qed.
End arc_iterator.

(** The items of the iterator, generically in the source of in-neighbourhoods. *)
Lemma arcs_list_generic g mode (P : N → N → Prop) :
  (∀ v, dvx g v → ∃ l, dni_src g mode v = Ok l ∧ ∀ u, u ∈ l ↔ P u v) →
  ∃ es, df_arcs_list g mode = Ok es ∧ (∀ a b, (a, b) ∈ es ↔ dvx g a ∧ (a <= b)%N ∧ P b a) ∧
    ((∀ v l, dni_src g mode v = Ok l → NoDup l) → NoDup es).
Proof.
  intros Hs. unfold df_arcs_list.
  assert (∀ vs, (∀ v, v ∈ vs → dvx g v) → ∃ ls,
    mapM (M:=res) (λ v, l ← dni_src g mode v; Ok (pair v <$> filter (λ u, ¬ (u < v)%N) (l : list N))) vs = Ok ls ∧
    (∀ a b, (a, b) ∈ concat ls ↔ a ∈ vs ∧ (a <= b)%N ∧ P b a) ∧
    ((∀ v l, dni_src g mode v = Ok l → NoDup l) → NoDup vs → NoDup (concat ls))) as HH.
  { induction vs as [|v vs IH]; intros Hvs.
    - exists []. cbn. split_and!; [done|set_solver|]. intros; constructor.
    - destruct (Hs v) as (l & Hl & HP); [apply Hvs; set_solver|].
      destruct IH as (ls & Hls & Hm & Hnd); [set_solver|].
      exists ((pair v <$> filter (λ u, ¬ (u < v)%N) l) :: ls). cbn. rewrite Hl. cbn. rewrite Hls. cbn.
      assert (∀ a b, (a, b) ∈ pair v <$> filter (λ u, ¬ (u < v)%N) l ↔ a = v ∧ (a <= b)%N ∧ P b a) as Hhd.
      { intros a b. rewrite elem_of_list_fmap. split.
        - intros (u & [= -> ->] & [? Hu%HP]%elem_of_list_filter). split_and!; [done|lia|done].
        - intros (-> & Hle & HPb). exists b. split; [done|]. apply elem_of_list_filter. split; [lia|]. by apply HP. }
      split_and!; [done| |].
      + intros a b. rewrite elem_of_app, Hhd, Hm, elem_of_cons. tauto.
      + intros Hnds [Hv Hnd']%NoDup_cons. apply NoDup_app. split_and!; [|intros [a b]; rewrite Hhd, Hm; naive_solver|by apply Hnd].
        apply NoDup_fmap_2; [intros ?? [= ?]; done|]. apply NoDup_filter. by eapply Hnds. }
  destruct (HH (df_vertices g)) as (ls & Hls & Hm & Hnd). { intros v. by rewrite df_vertices_spec. }
  exists (concat ls). rewrite Hls. cbn [mbind res_bind]. split_and!; [done| |].
  - intros a b. by rewrite Hm, df_vertices_spec.
  - intros Hnds. apply Hnd; [done|apply df_vertices_nodup].
Qed.
Lemma arcs_at_spec g i : dtf_wf g → i < df_depth g →
  ∃ es, df_arcs_list g (Some (S i)) = Ok es ∧ NoDup es ∧ ∀ a b, (a, b) ∈ es ↔ (a <= b)%N ∧ arc g i b a.
Proof.
  intros Hg Hi. destruct (arcs_list_generic g (Some (S i)) (arc g i)) as (es & Hes & Hm & Hnd).
  { intros v Hv. destruct (in_at_spec g v i Hg Hv Hi) as (l & Hl & _ & Hu). by exists l. }
  exists es. split_and!; [done| |].
  - apply Hnd. cbn. intros v l Hl. by apply in_at_inv in Hl as [? _].
  - intros a b. rewrite Hm. split; [naive_solver|]. intros [? Ha]. split_and!; [by eapply arc_head|done|done].
Qed.
Lemma arcs_all_spec g : 
  ∃ es, df_arcs_list g None = Ok es ∧ (disjoint_layers g → NoDup es) ∧ ∀ a b, (a, b) ∈ es ↔ (a <= b)%N ∧ ∃ i, arc g i b a.
Proof.
  destruct (arcs_list_generic g None (λ u v, ∃ i, arc g i u v)) as (es & Hes & Hm & Hnd).
  { intros v Hv. apply (in_neighbours_spec g v Hv). }
  exists es. split_and!; [done| |].
  - intros Hd. apply Hnd. cbn. intros v l Hl. by eapply in_neighbours_nodup.
  - intros a b. rewrite Hm. split; [naive_solver|]. intros [? [i Ha]]. split_and!; [by eapply arc_head|done|eauto].
Qed.

(** ** Conversions *)
Lemma to_undirected_spec g : dtf_wf g → ∃ h, df_to_undirected g = Ok h ∧ eg_wf h ∧ (∀ v, ev h v ↔ dvx g v) ∧
  ∀ u v, ea h u v ↔ ((u <= v)%N ∧ ∃ i, arc g i v u) ∨ ((v <= u)%N ∧ ∃ i, arc g i u v).
Proof.
  intros Hg. unfold df_to_undirected. destruct (arcs_all_spec g) as (es & -> & _ & Hes). cbn [mbind res_bind].
  destruct (adds_vertices (df_vertices g) eg_new eg_new_wf) as (h0 & [= <-] & Hwf0 & HV0 & HE0).
  destruct (adds_fold (λ h (e : N * N), r ← eg_add_edge h e.1 e.2; Ok r.1) es _ _ (λ e _, adds_edge e.1 e.2) _ Hwf0) as (h & -> & Hwf & HV & HE).
  exists h. split_and!; [done|done| |].
  - intros v. rewrite HV, HV0, df_vertices_spec. split; [|auto]. intros [[He|?]|([a b] & [_ [i Ha]]%Hes & He)]; [by apply eg_new_ev in He|done|].
    cbn in He. destruct He as [->| ->]; [by eapply arc_head|by eapply arc_tail].
  - intros u v. rewrite HE, HE0. split.
    + intros [[He|[]]|([a b] & Hab & He)]; [by apply eg_new_ea in He|]. apply Hes in Hab. cbn in He.
      destruct He as [[-> ->]|[-> ->]]; auto.
    + intros [Ha|Ha]; right; [exists (u, v)|exists (v, u)]; (split; [by apply Hes|]); cbn; auto.
Qed.
End with_iter.
