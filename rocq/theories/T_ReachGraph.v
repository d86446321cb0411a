(** Property theorems C43 and C68: ReachGraph.  Each group is followed by a concrete case meeting
    the hypotheses.  [u32_mod] is 2^32: offsets into the packed array are stored as u32. *)
From Verif Require Import Base Spec M_Graph M_Iterators M_EditGraph M_Algorithms M_OrdGraph M_DegenGraph M_Linear M_ReachGraph
  S_Graph S_Linear S_Reach P_EditGraph P_Graph P_Iterators P_Degeneracy P_OrdGraph P_OrdGraph2 P_Packed P_DegenGraph
  P_DegenGraph2 P_Linear P_Linear2 P_ReachGraph Examples T_Linear.

(** [l] lists exactly the vertices that [m] maps to [d], strictly increasing by ([order], name). *)
Definition lists_level (order : gmap N nat) (m : gmap N nat) (d : nat) (l : list N) : Prop :=
  (∀ v, v ∈ l ↔ m !! v = Some d) ∧
  ∀ i j x y, l !! i = Some x → l !! j = Some y → i < j →
    ∃ ox oy, order !! x = Some ox ∧ order !! y = Some oy ∧ (ox < oy ∨ ox = oy ∧ (x < y)%N).

(** What the stored sets of one vertex must look like. *)
Definition stores (D : nat) (order : gmap N nat) (g : reachgraph) (u : N) (m : gmap N nat) : Prop :=
  ∃ x ls, rg_reachables D g u = Ok x ∧ ra_from x = u ∧ length ls = D ∧
    (∀ d, 1 ≤ d ≤ D → ∃ l, ls !! (d - 1) = Some l ∧ ra_at D x d = Ok l ∧ lists_level order m d l) ∧
    (∀ d, ¬ (1 ≤ d ≤ D) → ra_at D x d = Panic) ∧
    ra_len x = size m ∧ (ra_is_empty x = true ↔ m = ∅) ∧
    rg_reachables_all D g u = Ok (concat ls) ∧
    ∃ index, rg_segment D g u = Ok (u :: index ++ concat ls) ∧ length index = D + 1.

(** What it means for [g] to describe the sequence of appends. *)
Definition reach_of (D : nat) (order : gmap N nat) (apps : list (N * gmap N nat)) (g : reachgraph) : Prop :=
  let L := rg_lgraph D g in
  drains (ro_next g) (ro_new g) apps.*1 ∧ vertices L = apps.*1 ∧ num_vertices L = length apps ∧
  rg_first g = head apps.*1 ∧ (∀ u, contains L u = true ↔ u ∈ apps.*1) ∧
  (∀ u m, (u, m) ∈ apps → stores D order g u m) ∧
  (∃ s0 items, ri_new D g = Ok s0 ∧ drains (ri_next D g) s0 items ∧ items.*1 = apps.*1 ∧
     ∀ u x, (u, x) ∈ items → rg_reachables D g u = Ok x) ∧
  (∀ u v, adjacent L u v = true ↔
     (∃ m, (u, m) ∈ apps ∧ m !! v = Some 1) ∨ (∃ m, (v, m) ∈ apps ∧ m !! u = Some 1)) ∧
  (∃ E : gset (N * N), num_edges L = size E ∧ ∀ u v, (u, v) ∈ E ↔ (u <= v)%N ∧ adjacent L u v = true) ∧
  (∀ u m, (u, m) ∈ apps → ∃ l, left_neighbours L u = Ok l ∧ lists_level order m 1 l ∧
     rg_degree D g u = Ok (length l + right_degree L u) ∧ degree L u = length l + right_degree L u) ∧
  (∀ v, right_degree L v = length (filter (λ p : N * gmap N nat, p.2 !! v = Some 1) apps)) ∧
  (∀ u, u ∈ apps.*1 → ∃ i, index_of L u = Ok i) ∧
  (∀ u v i j, index_of L u = Ok i → index_of L v = Ok j → i < j ↔ before apps.*1 u v) ∧
  (∀ u, u ∉ apps.*1 → index_of L u = Panic ∧ rg_reachables D g u = Panic).

Lemma built_reach_of D order apps b arows rows : 1 ≤ D → NoDup apps.*1 → built D order apps b arows rows →
  reach_of D order apps (rb_graph b).
Proof.
  intros HD Hnd Hb. set (g := rb_graph b) in *.
  pose proof (bu_rep _ _ _ _ _ _ Hb) as Hrep. fold g in Hrep.
  pose proof (bu_edges _ _ _ _ _ _ Hb) as Hed. fold g in Hed.
  pose proof (forall2_fst _ _ _ _ (bu_segs _ _ _ _ _ _ Hb)) as Hfst.
  assert (NoDup arows.*1) as Hnd' by (by rewrite Hfst).
  destruct (rr_order D arows rows (rb_last b) g Hrep Hnd') as [Hord Hsz].
  assert (length arows = length apps) as Hlen by (rewrite <- (fmap_length fst arows), Hfst; apply fmap_length).
  assert (∀ u m, (u, m) ∈ apps → ∃ i segs, arows !! i = Some (u, segs) ∧ segs_ok D order m segs) as Hrow.
  { intros u m [i Hi]%elem_of_list_lookup. pose proof (bu_segs _ _ _ _ _ _ Hb) as HF.
    destruct (Forall2_lookup_l _ _ _ _ _ HF Hi) as ([u' segs] & Hi' & H1 & H2). cbn in H1, H2. subst u'. eauto. }
  assert (∀ u m, (u, m) ∈ apps → stores D order g u m) as Hst.
  { intros u m Hin. destruct (Hrow u m Hin) as (i & segs & Hi & Hseg).
    destruct (rr_reachables_at D arows rows (rb_last b) g Hrep i u segs Hi) as (bs & Hx & Hbl & _).
    exists (Reachables u segs bs), segs. split_and!.
    - unfold rg_reachables. rewrite (rr_index D arows rows (rb_last b) g Hrep i u) by (by eapply rr_fst). done.
    - done.
    - apply Hseg.
    - intros d Hd. destruct (lookup_lt_is_Some_2 segs (d - 1)) as [l Hl].
      { rewrite (so_len _ _ _ _ Hseg). lia. }
      exists l. split_and!; [done| |split].
      + unfold ra_at. rewrite !(proj2 (Nat.leb_le _ _)) by lia. cbn. by rewrite Hl.
      + by apply (so_elem _ _ _ _ Hseg); [lia|].
      + by apply (so_sorted _ _ _ _ Hseg (d - 1) l).
    - intros d Hd. unfold ra_at. destruct (Nat.leb_spec 1 d), (Nat.leb_spec d D); try done; lia.
    - unfold ra_len. cbn [ra_segs]. rewrite <- (so_size _ _ _ _ Hseg). clear. induction segs as [|s l IH]; [done|].
      cbn. by rewrite app_length, IH.
    - unfold ra_is_empty. cbn [ra_segs]. rewrite <- (map_size_empty_iff m), <- (so_size _ _ _ _ Hseg). clear.
      induction segs as [|s l IH]; [done|]. cbn. rewrite andb_true_iff, app_length, IH, Nat.eqb_eq. lia.
    - by eapply rr_all.
    - by eapply rr_segment. }
  assert (∀ u v, adjacent (rg_lgraph D g) u v = true ↔
     (∃ m, (u, m) ∈ apps ∧ m !! v = Some 1) ∨ (∃ m, (v, m) ∈ apps ∧ m !! u = Some 1)) as Hadj.
  { intros u v. cbn. rewrite orb_true_iff, !bool_decide_eq_true, !Hed. split.
    - intros [(a & m & c & Hin & Hm & Heq)|(a & m & c & Hin & Hm & Heq)];
        destruct (upair_cases a c) as [H|H]; rewrite H in Heq; injection Heq as -> ->; eauto.
    - intros [(m & Hin & Hm)|(m & Hin & Hm)].
      + destruct (upair_cases u v) as [H|H]; [left|right]; exists u, m, v; done.
      + destruct (upair_cases v u) as [H|H]; [right|left]; exists v, m, u; done. }
  unfold reach_of. split_and!.
  - by rewrite <- Hfst.
  - change (match rg_order g with Ok l => l | _ => [] end = apps.*1).
    by rewrite (rr_verts D arows rows (rb_last b) g Hrep Hnd').
  - cbn. by rewrite Hsz.
  - unfold rg_first. rewrite <- Hfst. destruct (arows !! 0) as [[u segs]|] eqn:H0.
    + destruct (rr_rows _ _ _ _ _ _ Hrep 0 u segs H0) as [_ Hr].
      destruct (pk_row _ _ _ (rr_packed _ _ _ _ _ _ Hrep) _ _ _ Hr) as (H1 & _). rewrite off_0 in H1.
      replace (head (rg_contents g)) with (rg_contents g !! 0) by (by destruct (rg_contents g)). rewrite H1.
      destruct arows; [done|]. cbn in H0. by injection H0 as ->.
    + destruct arows; [|done]. pose proof (pk_length _ _ _ (rr_packed _ _ _ _ _ _ Hrep)) as Hl.
      rewrite (rr_len _ _ _ _ _ _ Hrep) in Hl. cbn in Hl. by destruct (rg_contents g).
  - intros u. cbn. rewrite bool_decide_eq_true. rewrite <- Hfst. split.
    + intros [i (k & Hk & _)%(rr_ind _ _ _ _ _ _ Hrep)]. by eapply elem_of_list_lookup_2.
    + intros [k Hk]%elem_of_list_lookup. exists (off rows k). apply (rr_ind _ _ _ _ _ _ Hrep). eauto.
  - done.
  - rewrite <- Hfst. by eapply rr_iter.
  - done.
  - exists (rg_edges g). split; [done|]. intros u v. rewrite Hadj, Hed. split.
    + intros (a & m & c & Hin & Hm & Heq). pose proof (upair_le a c) as Hle. rewrite <- Heq in Hle. split; [done|].
      destruct (upair_cases a c) as [H|H]; rewrite H in Heq; injection Heq as -> ->; eauto.
    + intros [Hle [(m & Hin & Hm)|(m & Hin & Hm)]].
      * exists u, m, v. split_and!; [done|done|]. by rewrite upair_le_id.
      * exists v, m, u. split_and!; [done|done|]. by rewrite upair_comm, upair_le_id.
  - intros u m Hin. destruct (Hst u m Hin) as (x & ls & Hx & _ & _ & Hat & _).
    destruct (Hat 1 ltac:(lia)) as (l & _ & Hl & Hlev). exists l.
    assert (rg_left_neighbours D g u = Ok l) as Hln by (unfold rg_left_neighbours; rewrite Hx; done).
    assert (rg_degree D g u = Ok (length l + rg_right_degree g u)) as Hdeg.
    { unfold rg_degree. rewrite bool_decide_eq_true_2; [by rewrite Hln|].
      unfold rg_reachables, rg_index_of in Hx. destruct (rg_indices g !! u); [by eexists|done]. }
    split_and!; [done|done|done|]. cbn. by rewrite Hdeg.
  - apply (bu_right _ _ _ _ _ _ Hb).
  - intros u [k Hk]%elem_of_list_lookup. rewrite <- Hfst in Hk. eexists. by eapply rr_index.
  - intros u v i j Hi Hj. cbn in Hi, Hj. unfold rg_index_of in Hi, Hj. apply unwrap_ok in Hi, Hj.
    apply (rr_ind _ _ _ _ _ _ Hrep) in Hi as (k & Hk & ->), Hj as (k' & Hk' & ->). rewrite <- Hfst.
    pose proof (lookup_lt_Some _ _ _ Hk) as Hkl. pose proof (lookup_lt_Some _ _ _ Hk') as Hkl'.
    rewrite fmap_length, <- (rr_len _ _ _ _ _ _ Hrep) in Hkl, Hkl'. split.
    + intros Ho. exists k, k'. split_and!; [done|done|]. destruct (decide (k < k')) as [|Hge]; [done|].
      pose proof (off_le rows k' k). lia.
    + intros (a & c & Ha & Hc & Hac). unfold pos in *. pose proof (NoDup_lookup _ _ _ _ Hnd' Hk Ha).
      pose proof (NoDup_lookup _ _ _ _ Hnd' Hk' Hc). subst a c. pose proof (off_lt rows k k'). lia.
  - intros u Hu. assert (rg_index_of g u = Panic) as Hp.
    { unfold rg_index_of. destruct (rg_indices g !! u) as [i|] eqn:Hi; [|done].
      apply (rr_ind _ _ _ _ _ _ Hrep) in Hi as (k & Hk & _). destruct Hu. rewrite <- Hfst. by eapply elem_of_list_lookup_2. }
    split; [done|]. unfold rg_reachables. by rewrite Hp.
Qed.

(** [rg] describes the ordered graph [L] and stores, for each vertex [u] and each [d], the vertices
    [v] with [P u v d]. *)
Definition reach_graph_of (D : nat) (L : lgraph) (P : N → N → nat → Prop) (rg : reachgraph) : Prop :=
  let R := rg_lgraph D rg in
  drains (ro_next rg) (ro_new rg) (vertices L) ∧ vertices R = vertices L ∧ num_vertices R = num_vertices L ∧
  (∀ u, contains R u = contains L u) ∧ (∀ u v, adjacent R u v = adjacent L u v) ∧ num_edges R = num_edges L ∧
  (∀ u, contains L u = true →
     degree R u = degree L u ∧ right_degree R u = right_degree L u ∧
     (∃ l, left_neighbours R u = Ok l ∧
        lists_in_order (vertices L) (λ v, adjacent L u v = true ∧ before (vertices L) v u) l) ∧
     ∃ x, rg_reachables D rg u = Ok x ∧ ra_from x = u ∧
       ∀ d, 1 ≤ d ≤ D → ∃ l, ra_at D x d = Ok l ∧ lists_in_order (vertices L) (λ v, P u v d) l) ∧
  (∀ u, contains L u = true → ∃ i, index_of R u = Ok i) ∧
  (∀ u v i j, index_of R u = Ok i → index_of R v = Ok j → i < j ↔ before (vertices L) u v).

Lemma reach_of_graph (D : nat) (L : lgraph) (ind : gmap N nat) (M : N → gmap N nat) (P : N → N → nat → Prop) (rg : reachgraph) :
  1 ≤ D → lgraph_wf L → (∀ u, index_of L u = unwrap (ind !! u)) →
  (∀ u v d, vtx L u → M u !! v = Some d ↔ d ≤ D ∧ P u v d) →
  (∀ u v d, vtx L u → P u v d → before (vertices L) v u) →
  (∀ u v, vtx L u → P u v 1 ↔ adj L u v ∧ before (vertices L) v u) →
  reach_of D ind ((λ u, (u, M u)) <$> vertices L) rg → reach_graph_of D L P rg.
Proof.
  intros HD HL Hind HM HPb HP1 Hof. set (apps := (λ u, (u, M u)) <$> vertices L) in *.
  assert (apps.*1 = vertices L) as Hfst.
  { unfold apps. rewrite <- list_fmap_compose. apply list_fmap_id. }
  assert (∀ u m, (u, m) ∈ apps ↔ vtx L u ∧ m = M u) as Happ.
  { intros u m. unfold apps. rewrite elem_of_list_fmap, <- (vs_vtx L HL). split.
    - intros (u' & [= -> ->] & ?). done.
    - intros [? ->]. eauto. }
  destruct Hof as (Hord & Hvs & Hn & Hf & Hcon & Hst & _ & Hadj & (E & HE & HEs) & Hleft & Hright & Hidx & Hlt & _).
  rewrite Hfst in *.
  assert (∀ u v, adjacent (rg_lgraph D rg) u v = adjacent L u v) as Ha.
  { intros u v. apply eq_true_iff_eq. rewrite Hadj. fold (adj L u v). split.
    - intros [(m & [Hu ->]%Happ & Hm)|(m & [Hu ->]%Happ & Hm)]; apply HM in Hm as [_ Hm]; try done; apply HP1 in Hm as [Hm _]; try done.
      by apply (wf_adj_sym _ (lwf_graph L HL)).
    - intros Huv. pose proof (wf_adj_sym _ (lwf_graph L HL) _ _ Huv) as Hvu.
      pose proof (wf_adj_vtx _ (lwf_graph L HL) _ _ Huv) as Hu. pose proof (wf_adj_vtx _ (lwf_graph L HL) _ _ Hvu) as Hv.
      destruct (ord_total (vertices L) u v) as [Hb|Hb].
      + by apply (vs_vtx L HL).
      + by apply (vs_vtx L HL).
      + intros ->. by apply (lwf_loopless L HL) in Huv.
      + right. exists (M v). split; [by apply Happ|]. apply HM; [done|]. split; [done|]. by apply HP1.
      + left. exists (M u). split; [by apply Happ|]. apply HM; [done|]. split; [done|]. by apply HP1. }
  assert (∀ u d l, vtx L u → d ≤ D → lists_level ind (M u) d l → lists_in_order (vertices L) (λ v, P u v d) l) as Hlev.
  { intros u d l Hu Hd [H1 H2]. split.
    - intros v. rewrite H1, HM by done. tauto.
    - intros i j x y Hi Hj Hij. destruct (H2 i j x y Hi Hj Hij) as (ox & oy & Hox & Hoy & Hor).
      assert (vtx L x ∧ vtx L y) as [Hvx Hvy].
      { apply elem_of_list_lookup_2 in Hi, Hj. apply H1, HM in Hi as [_ Hi]; [|done]. apply H1, HM in Hj as [_ Hj]; [|done].
        apply HPb in Hi, Hj; [|done..]. apply (before_vtx L HL) in Hi as [? _], Hj as [? _]. done. }
      assert (index_of L x = Ok ox) as Hix by (rewrite Hind, Hox; done).
      assert (index_of L y = Ok oy) as Hiy by (rewrite Hind, Hoy; done).
      destruct Hor as [Ho|[-> Hxy]].
      + by apply (lwf_index_lt L HL x y ox oy).
      + destruct (ord_total (vertices L) x y) as [Hb|Hb]; [by apply (vs_vtx L HL)|by apply (vs_vtx L HL)|lia|done|].
        exfalso. apply (lwf_index_lt L HL y x oy oy Hiy Hix) in Hb. lia. }
  assert (∀ u, vtx L u → right_degree (rg_lgraph D rg) u = right_degree L u) as Hrd.
  { intros u Hu. rewrite Hright. destruct (lwf_right L HL u Hu) as (r & Hrnd & -> & Hr).
    rewrite <- (fmap_length fst). apply Permutation_length, NoDup_Permutation; [|done|].
    - unfold apps. rewrite <- Hfst in Hvs. clear -HL. pose proof (vs_nodup L HL) as Hnd. induction (vertices L) as [|x l IH]; [constructor|].
      apply NoDup_cons in Hnd as [Hx Hnd]. rewrite fmap_cons, filter_cons. destruct (decide _); [|by apply IH].
      rewrite fmap_cons. apply NoDup_cons. split; [|by apply IH]. intros ([a m] & Ha & Hin)%elem_of_list_fmap. cbn in Ha. subst a.
      apply elem_of_list_filter in Hin as [_ (z & Heq & Hz)%elem_of_list_fmap]. by injection Heq as -> _.
    - intros v. rewrite Hr. rewrite elem_of_list_fmap. split.
      + intros ([a m] & -> & Hin). apply elem_of_list_filter in Hin as [Hm Hin]. cbn in *. apply Happ in Hin as [Hv ->].
        apply HM in Hm as [_ Hm]; [|done]. apply HP1 in Hm as [Hm Hb]; [|done]. split; [by apply (wf_adj_sym _ (lwf_graph L HL))|done].
      + intros [Huv Hb]. apply (wf_adj_sym _ (lwf_graph L HL)) in Huv. pose proof (wf_adj_vtx _ (lwf_graph L HL) _ _ Huv) as Hv.
        exists (v, M v). split; [done|]. apply elem_of_list_filter. split; [|by apply Happ]. cbn. apply HM; [done|]. split; [done|].
        by apply HP1. }
  assert (∀ u, vtx L u → ∃ l, left_neighbours (rg_lgraph D rg) u = Ok l ∧
    lists_in_order (vertices L) (λ v, adj L u v ∧ before (vertices L) v u) l ∧
    degree (rg_lgraph D rg) u = length l + right_degree (rg_lgraph D rg) u) as Hlf.
  { intros u Hu. destruct (Hleft u (M u)) as (l & H1 & H2 & _ & H3); [by apply Happ|]. exists l. split_and!; [done| |done].
    apply Hlev in H2; [|done|done]. destruct H2 as [H4 H5]. split; [|done]. intros v. rewrite H4. by apply HP1. }
  unfold reach_graph_of. split_and!.
  - done.
  - done.
  - rewrite Hn, (wf_num_vertices _ (lwf_graph L HL)). unfold apps. apply fmap_length.
  - intros u. apply eq_true_iff_eq. rewrite Hcon. apply (vs_vtx L HL).
  - done.
  - rewrite HE. destruct (wf_num_edges _ (lwf_graph L HL)) as (E' & HE' & ->). f_equal. apply set_eq. intros [u v].
    rewrite HEs, HE'. unfold adj. by rewrite Ha.
  - intros u Hu. destruct (Hlf u Hu) as (l & Hl1 & Hl2 & Hdeg). split_and!.
    + rewrite Hdeg, (Hrd u Hu). destruct (lwf_right L HL u Hu) as (r & Hrnd & -> & Hr).
      destruct (wf_neighbours _ (lwf_graph L HL) u Hu) as (ns & _ & Hnd & Hns & ->).
      assert (adjacent L u u = false) as -> by (apply not_true_is_false, (lwf_loopless L HL)).
      rewrite Nat.add_0_r, <- app_length. apply Permutation_length, NoDup_Permutation; [|done|].
      * apply NoDup_app. split_and!.
        -- eapply lists_in_order_NoDup; [apply (vs_nodup L HL)|done].
        -- intros x Hx%(proj1 Hl2) [_ Hb]%Hr. destruct Hx as [_ Hb']. by eapply ord_irrefl; [apply (vs_nodup L HL)|..].
        -- done.
      * intros x. rewrite elem_of_app, (proj1 Hl2), Hr, Hns. split; [tauto|]. intros Hux.
        destruct (ord_total (vertices L) u x) as [Hb|Hb]; [by apply (vs_vtx L HL)| | |by right|by left].
        -- apply (vs_vtx L HL). by eapply (wf_adj_vtx _ (lwf_graph L HL)), (wf_adj_sym _ (lwf_graph L HL)).
        -- intros ->. by apply (lwf_loopless L HL) in Hux.
    + by apply Hrd.
    + by exists l.
    + destruct (Hst u (M u)) as (x & ls & Hx & Hfr & _ & Hat & _); [by apply Happ|]. exists x. split_and!; [done|done|].
      intros d Hd. destruct (Hat d Hd) as (l' & _ & Hl' & Hlv). exists l'. split; [done|]. apply Hlev; [done|lia|done].
  - intros u Hu. apply Hidx. by apply (vs_vtx L HL).
  - done.
Qed.

Section with_iter.
Context `{HI : HashIter}.

(** ** C43 *)
Theorem C43_appends (D : nat) (order : gmap N nat) (apps : list (N * gmap N nat)) : 1 ≤ D → NoDup apps.*1 →
  (∀ u m v d, (u, m) ∈ apps → m !! v = Some d → 1 ≤ d ≤ D ∧ is_Some (order !! v)) →
  (N.of_nat (sum_list_with (λ p : N * gmap N nat, 2 + D + size p.2)%nat apps) < u32_mod)%N →
  ∃ g, rb_appends D order apps = Ok g ∧ reach_of D order apps g.
Proof.
  intros HD Hnd Hm Hsz. destruct (rb_appends_spec D order apps Hnd Hm Hsz) as (b & arows & rows & Hb & Hbu).
  exists (rb_graph b). split; [unfold rb_appends; by rewrite Hb|]. by eapply built_reach_of.
Qed.

Theorem C43_to_wreach_graph (D : nat) (g : ordgraph) : 1 ≤ D → (N.of_nat D + 1 < u32_mod)%N →
  lgraph_wf (og_lgraph g) →
  (∀ k, wreach_sizes (og_lgraph g) D = Ok k →
     (N.of_nat (sum_list_with (λ u, 2 + D + default 0 (k !! u))%nat (vertices (og_lgraph g))) < u32_mod)%N) →
  ∃ rg, og_to_wreach_graph D g = Ok rg ∧
    reach_graph_of D (og_lgraph g)
      (λ u v d, before (vertices (og_lgraph g)) v u ∧ least (wreach_walk (og_lgraph g) u v) d) rg.
Proof.
  intros HD HDu HL Hsz. set (L := og_lgraph g) in *.
  destruct (wreach_sets_spec L HL D HDu) as (W & HW & Hdom & Hw).
  destruct (C42_wreach_sizes L D HL HDu) as (W' & k & HW' & Hk & Hkw). rewrite HW in HW'. injection HW' as <-.
  specialize (Hsz k Hk).
  set (M := λ u, default ∅ (W !! u)). set (apps := (λ u, (u, M u)) <$> vertices L).
  assert (∀ u, vtx L u → W !! u = Some (M u) ∧ wreach_spec L u D (M u)) as HM.
  { intros u Hu. unfold M. destruct (proj2 (Hdom u) Hu) as [w Huw]. rewrite Huw. split; [done|]. cbn. by apply Hw. }
  assert (∀ u v d, vtx L u → M u !! v = Some d → 1 ≤ d) as HM1.
  { intros u v d Hu Hm. apply (HM u Hu) in Hm as (Hb & _ & (p & Hlen & Hh & Hl & _) & _). destruct d; [|lia].
    destruct p as [|a [|b p]]; try done. cbn in Hh, Hl. simplify_eq. by apply ord_irrefl' in Hb; [|apply (vs_nodup L HL)]. }
  destruct (C43_appends D (og_indices g) apps) as (rg & Hrg & Hof).
  - done.
  - unfold apps. rewrite <- list_fmap_compose. change (NoDup (id <$> vertices L)). rewrite list_fmap_id. apply (vs_nodup L HL).
  - intros u m v d Hin Hm. unfold apps in Hin. apply elem_of_list_fmap in Hin as (u' & [= -> ->] & Hu). apply (vs_vtx L HL) in Hu.
    split.
    + split; [by eapply HM1|]. by apply (HM u' Hu) in Hm as (_ & ? & _).
    + apply (HM u' Hu) in Hm as (Hb & _). apply (before_vtx L HL) in Hb as [Hv _]. destruct (lwf_index L HL v Hv) as [i Hi].
      cbn in Hi. apply unwrap_ok in Hi. eauto.
  - match goal with |- (N.of_nat ?a < _)%N => match type of Hsz with (N.of_nat ?b < _)%N => replace a with b; [exact Hsz|] end end.
    unfold apps. clear -HM Hkw HL.
    assert (∀ u, u ∈ vertices L → vtx L u) as Hv by (intros u; apply (vs_vtx L HL)).
    induction (vertices L) as [|u l IH]; [done|]. cbn [fmap list_fmap sum_list_with snd]. rewrite <- IH by (intros x Hx; apply Hv; by right).
    rewrite Hkw, (proj1 (HM u (Hv u ltac:(by left)))). done.
  - exists rg. split.
    + unfold og_to_wreach_graph. fold L. rewrite HW. cbn [mbind res_bind]. unfold rb_appends in Hrg. rewrite <- Hrg. unfold apps.
      rewrite fold_res_fmap. change (vertices (og_graph g)) with (vertices L). f_equal. apply fold_res_ext. intros b u Hu. cbn [fst snd].
      apply (vs_vtx L HL) in Hu. by rewrite (proj1 (HM u Hu)).
    + eapply (reach_of_graph D L (og_indices g) M); [done|done|done| | | |exact Hof].
      * intros u v d Hu. destruct (HM u Hu) as [_ Hs]. rewrite (Hs v d). tauto.
      * by intros u v d Hu [? _].
      * intros u v Hu. split.
        -- intros [Hb [(p & Hlen & Hh & Hl & Hwk & _) _]]. split; [|done].
           destruct p as [|a [|b [|c p]]]; try done. cbn in Hh, Hl. simplify_eq. by destruct Hwk as [Hwk _].
        -- intros [Huv Hb]. split; [done|]. split.
           ++ exists [u; v]. split_and!; [done|done|done|by split|]. intros y [->|[->|[]%elem_of_nil]%elem_of_cons]%elem_of_cons; [by right|by left].
           ++ intros j (p & Hlen & Hh & Hl & _). destruct j; [|lia]. destruct p as [|a [|b p]]; try done. cbn in Hh, Hl. simplify_eq.
              by apply ord_irrefl' in Hb; [|apply (vs_nodup L HL)].
Qed.

Theorem C43_to_sreach_graph (D : nat) (g : ordgraph) : 1 ≤ D → (N.of_nat D < u32_mod)%N →
  lgraph_wf (og_lgraph g) →
  (∀ k, sreach_sizes (og_lgraph g) D = Ok k →
     (N.of_nat (sum_list_with (λ u, 2 + D + default 0 (k !! u))%nat (vertices (og_lgraph g))) < u32_mod)%N) →
  ∃ rg, og_to_sreach_graph D g = Ok rg ∧
    reach_graph_of D (og_lgraph g)
      (λ u v d, before (vertices (og_lgraph g)) v u ∧ 1 ≤ d ∧ least (sreach_walk (og_lgraph g) u v) d) rg.
Proof.
  intros HD HDu HL Hsz. set (L := og_lgraph g) in *.
  destruct (sreach_sizes_spec L HL D HD HDu) as (k & Hk & Hkw). specialize (Hsz k Hk).
  set (M := λ u, match sreach_set L u D with Ok s => s | _ => ∅ end). set (apps := (λ u, (u, M u)) <$> vertices L).
  assert (∀ u, vtx L u → sreach_set L u D = Ok (M u) ∧ sreach_spec L u D (M u)) as HM.
  { intros u Hu. unfold M. destruct (sreach_set_spec L HL u D Hu HD HDu) as (s & -> & Hs). done. }
  destruct (C43_appends D (og_indices g) apps) as (rg & Hrg & Hof).
  - done.
  - unfold apps. rewrite <- list_fmap_compose. change (NoDup (id <$> vertices L)). rewrite list_fmap_id. apply (vs_nodup L HL).
  - intros u m v d Hin Hm. unfold apps in Hin. apply elem_of_list_fmap in Hin as (u' & [= -> ->] & Hu). apply (vs_vtx L HL) in Hu.
    apply (HM u' Hu) in Hm as (Hb & Hd & _). split; [done|]. apply (before_vtx L HL) in Hb as [Hv _]. destruct (lwf_index L HL v Hv) as [i Hi].
    cbn in Hi. apply unwrap_ok in Hi. eauto.
  - match goal with |- (N.of_nat ?a < _)%N => match type of Hsz with (N.of_nat ?b < _)%N => replace a with b; [exact Hsz|] end end.
    unfold apps. clear -HM Hkw HL.
    assert (∀ u, u ∈ vertices L → vtx L u) as Hv by (intros u; apply (vs_vtx L HL)).
    induction (vertices L) as [|u l IH]; [done|]. cbn [fmap list_fmap sum_list_with snd]. rewrite <- IH by (intros x Hx; apply Hv; by right).
    pose proof (Hv u ltac:(by left)) as Hu. rewrite (proj2 (Hkw u (size (M u)))); [done|]. split; [done|]. exists (M u). split; [|done]. by apply HM.
  - exists rg. split.
    + unfold og_to_sreach_graph. fold L. unfold rb_appends in Hrg. rewrite <- Hrg. unfold apps.
      rewrite fold_res_fmap. change (vertices (og_graph g)) with (vertices L). f_equal. apply fold_res_ext. intros b u Hu. cbn [fst snd].
      apply (vs_vtx L HL) in Hu. by rewrite (proj1 (HM u Hu)).
    + eapply (reach_of_graph D L (og_indices g) M); [done|done|done| | | |exact Hof].
      * intros u v d Hu. destruct (HM u Hu) as [_ Hs]. rewrite (Hs v d). tauto.
      * by intros u v d Hu [? _].
      * intros u v Hu. split.
        -- intros (Hb & _ & (q & Hlen & Hh & Hwk & _) & _). split; [|done].
           destruct q as [|a [|b q]]; try done. cbn in Hh. simplify_eq. by destruct Hwk as [Hwk _].
        -- intros [Huv Hb]. split_and!; [done|done|]. split.
           ++ exists [u]. split_and!; [done|done|by split|]. intros y Hy%elem_of_list_singleton. by left.
           ++ intros j (q & Hlen & Hh & _). destruct j; [|lia]. destruct q; try done. cbn in Hh. simplify_eq.
              by apply ord_irrefl' in Hb; [|apply (vs_nodup L HL)].
Qed.

(** ** C68: [get_boundaries] is off by one. *)
Theorem C68_boundaries_shifted (D : nat) (order : gmap N nat) (apps : list (N * gmap N nat)) (g : reachgraph) :
  NoDup apps.*1 →
  (∀ u m v d, (u, m) ∈ apps → m !! v = Some d → 1 ≤ d ≤ D ∧ is_Some (order !! v)) →
  (N.of_nat (sum_list_with (λ p : N * gmap N nat, 2 + D + size p.2)%nat apps) < u32_mod)%N →
  rb_appends D order apps = Ok g →
  ∀ u x, u ∈ apps.*1 → rg_reachables D g u = Ok x →
    ra_get_boundaries x D = Panic ∧
    ∀ d, 1 ≤ d < D → ∃ lo hi l, ra_get_boundaries x d = Ok (lo, hi) ∧ slice (rg_contents g) lo hi = Ok l ∧
      ra_at D x (S d) = Ok l.
Proof.
  intros Hnd Hm Hsz Hg u x Hu Hx. destruct (rb_appends_spec D order apps Hnd Hm Hsz) as (b & arows & rows & Hb & Hbu).
  unfold rb_appends in Hg. rewrite Hb in Hg. injection Hg as <-.
  pose proof (bu_rep _ _ _ _ _ _ Hbu) as Hrep. pose proof (bu_segs _ _ _ _ _ _ Hbu) as HF.
  rewrite <- (forall2_fst _ _ _ _ HF) in Hu. apply elem_of_list_fmap in Hu as ([u' segs] & -> & [i Hi]%elem_of_list_lookup).
  destruct (rr_reachables_at D arows rows (rb_last b) (rb_graph b) Hrep i u' segs Hi) as (bs & Hx' & Hbl & Hbs).
  unfold rg_reachables in Hx. cbn [fst] in Hx. rewrite (rr_index D arows rows (rb_last b) (rb_graph b) Hrep i u') in Hx by (by eapply rr_fst).
  cbn [mbind res_bind] in Hx. rewrite Hx' in Hx. injection Hx as <-.
  destruct (rr_rows _ _ _ _ _ _ Hrep _ _ _ Hi) as [Hlen _].
  unfold ra_get_boundaries, ra_at. cbn [ra_segs ra_bounds]. rewrite Hlen. split.
  - destruct (Nat.leb_spec 1 D); [|done]. rewrite (proj2 (Nat.ltb_lt _ _)) by lia. cbn [andb assert_res mbind res_bind].
    by rewrite (proj2 (lookup_ge_None _ _)) by lia.
  - intros d Hd. rewrite !(proj2 (Nat.leb_le _ _)), (proj2 (Nat.ltb_lt _ _)) by lia. cbn [andb assert_res mbind res_bind].
    destruct (lookup_lt_is_Some_2 segs d) as [l Hl]; [lia|]. destruct (Hbs d l Hl) as (lo & hi & H1 & H2).
    exists lo, hi, l. rewrite H1. split_and!; [done|done|]. replace (S d - 1) with d by lia. by rewrite Hl.
Qed.
End with_iter.

(** ** Concrete cases and refutations *)
Local Existing Instance std_iter.

(** Three appends at depth 2, in the order 5, 7, 9, 4; 4 reaches 7 and 5 in one step and 9 in two. *)
Definition ex_order : gmap N nat := <[5%N := 0]> (<[7%N := 1]> (<[9%N := 2]> (<[4%N := 3]> ∅))).
Definition ex_apps : list (N * gmap N nat) :=
  [(5%N, ∅); (7%N, <[5%N := 2]> ∅); (9%N, <[7%N := 1]> (<[5%N := 1]> ∅));
   (4%N, <[9%N := 2]> (<[7%N := 1]> (<[5%N := 1]> ∅)))].
Example ex_C43_hyps : NoDup ex_apps.*1 ∧
  (∀ u m v d, (u, m) ∈ ex_apps → m !! v = Some d → 1 ≤ d ≤ 2 ∧ is_Some (ex_order !! v)) ∧
  (N.of_nat (sum_list_with (λ p : N * gmap N nat, 2 + 2 + size p.2)%nat ex_apps) < u32_mod)%N.
Proof.
  split_and!; [apply (bool_decide_unpack _); vm_compute; done| |vm_compute; done].
  intros u m v d Hin Hm. unfold ex_apps in Hin.
  rewrite !elem_of_cons, elem_of_nil in Hin.
  destruct Hin as [[= -> ->]|[[= -> ->]|[[= -> ->]|[[= -> ->]|[]]]]];
    repeat (rewrite lookup_insert_Some in Hm || rewrite lookup_empty in Hm);
    destruct_or?; destruct_and?; subst; try done;
    repeat match goal with H : _ ∨ _ |- _ => destruct H | H : _ ∧ _ |- _ => destruct H end; subst; try done;
    (split; [lia|eexists; vm_compute; reflexivity]).
Qed.
Example ex_C43 :
  (g ← rb_appends 2 ex_order ex_apps;
   x ← rg_reachables 2 g 4; a1 ← ra_at 2 x 1; a2 ← ra_at 2 x 2; all ← rg_reachables_all 2 g 4;
   Ok (a1, a2, all, vertices (rg_graph 2 g), rg_contents g, num_edges (rg_graph 2 g), degree (rg_graph 2 g) 5)) =
  Ok ([5; 7], [9], [5; 7; 9], [5; 7; 9; 4],
      [5; 4; 4; 4; 7; 9; 8; 9; 5; 9; 15; 15; 15; 5; 7; 4; 15; 21; 22; 5; 7; 9], 4%nat, 2%nat)%N.
Proof. vm_compute. done. Qed.
Definition ex_c5_ord : ordgraph := ex_ord [(0, 1); (1, 2); (2, 3); (3, 4); (4, 0); (0, 5)]%N [2; 0; 5; 1; 4; 3]%N.
Example ex_C43_hyps2 : lgraph_wf (og_lgraph ex_c5_ord) ∧
  (k ← wreach_sizes (og_lgraph ex_c5_ord) 2;
   Ok (sum_list_with (λ u, 2 + 2 + default 0 (k !! u))%nat (vertices (og_lgraph ex_c5_ord)))) = Ok 33 ∧
  (k ← sreach_sizes (og_lgraph ex_c5_ord) 2;
   Ok (sum_list_with (λ u, 2 + 2 + default 0 (k !! u))%nat (vertices (og_lgraph ex_c5_ord)))) = Ok 32.
Proof. split; [exact (proj1 ex_c5_wf)|]. vm_compute. done. Qed.
Example ex_C43_wreach :
  (g ← og_to_wreach_graph 2 ex_c5_ord; x ← rg_reachables 2 g 3; a1 ← ra_at 2 x 1; a2 ← ra_at 2 x 2; Ok (a1, a2)) = Ok ([2; 4], [0])%N ∧
  (g ← og_to_sreach_graph 2 ex_c5_ord; x ← rg_reachables 2 g 4; a1 ← ra_at 2 x 1; a2 ← ra_at 2 x 2; Ok (a1, a2)) = Ok ([0], [2])%N.
Proof. vm_compute. done. Qed.

(** With [DEPTH = 0] the graph builds but its LinearGraph queries panic. *)
Theorem C43_depth_zero_refuted : ∃ (apps : list (N * gmap N nat)) g u, u ∈ apps.*1 ∧ rb_appends 0 ∅ apps = Ok g ∧
  left_neighbours (rg_lgraph 0 g) u = Panic ∧ rg_reachables_all 0 g u = Panic.
Proof. eexists [(7%N, ∅)], _, 7%N. split; [by left|]. split; [vm_compute; reflexivity|]. vm_compute. done. Qed.

(** C68 as documented (the bounds of the vertices at [depth]) is false. *)
Theorem C68_boundaries_refuted : ∃ D order apps g u x, rb_appends D order apps = Ok g ∧ rg_reachables D g u = Ok x ∧
  ∃ d l, 1 ≤ d ≤ D ∧ ra_at D x d = Ok l ∧
    ¬ ∃ lo hi, ra_get_boundaries x d = Ok (lo, hi) ∧ slice (rg_contents g) lo hi = Ok l.
Proof.
  eexists 2, ex_order, ex_apps, _, 4%N, _. split; [vm_compute; reflexivity|]. split; [vm_compute; reflexivity|].
  exists 2, [9%N]. split_and!; [lia|lia|vm_compute; done|]. intros (lo & hi & H & _). vm_compute in H. done.
Qed.

Print Assumptions C43_appends.
Print Assumptions C43_to_wreach_graph.
Print Assumptions C43_to_sreach_graph.
Print Assumptions C68_boundaries_shifted.
Print Assumptions C43_depth_zero_refuted.
Print Assumptions C68_boundaries_refuted.
