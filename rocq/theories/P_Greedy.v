(** Greedy colouring along orders in which the left degree grows slowly. *)
From Verif Require Import Base Spec M_Graph M_Iterators M_Algorithms M_OrdGraph M_Linear S_Graph S_Linear S_Cliques
  P_Graph P_Degeneracy P_OrdGraph P_OrdGraph2 P_DegenGraph P_Linear P_Cliques T_Algorithms T_OrdGraph.

Lemma free_colour (used cs : list N) : NoDup used → length cs < length used → ∃ c, c ∈ used ∧ c ∉ cs.
Proof.
  intros Hnd Hlt. destruct (decide (Forall (λ c, c ∈ cs) used)) as [Hall|Hn].
  - exfalso. rewrite Forall_forall in Hall.
    assert (length used ≤ length cs) by (by apply submseteq_length, NoDup_submseteq). lia.
  - apply not_Forall_Exists in Hn; [|apply _]. apply Exists_exists in Hn as (c & ? & ?). eauto.
Qed.

Section with_wf.
Context (L : lgraph) (HL : lgraph_wf L).

Lemma greedy_slow : left_degrees_rise_slowly L →
  ∃ c, colour_greedy L = Ok c ∧ ∀ v, vtx L v → is_Some (c !! v).
Proof.
  intros Hslow. unfold colour_greedy. pose proof (vs_nodup L HL) as Hnd.
  destruct (fold_res_inv (cg_step L) (λ pre st, cg_inv L pre st ∧ (∀ v, v ∈ pre → is_Some (st.1 !! v)) ∧
      ∀ l0 u, pre = l0 ++ [u] → ∃ nu, left_neighbours L u = Ok nu ∧ length nu < length st.2) (vertices L) (∅, []))
    as ([c used] & Hf & _ & Hc & _).
  - split; [|split; [set_solver|intros l0 u He; by destruct l0]]. split_and!; [done| | |by left].
    + intros u c. cbn. by rewrite lookup_empty.
    + intros u v a b _. cbn. by rewrite lookup_empty.
  - intros l1 v l2 [colours used] Hl (HI & Hall & Hlast). cbn [fst snd] in Hall, Hlast.
    assert (vtx L v) as Hv by (apply (vs_vtx L HL); rewrite Hl; set_solver).
    destruct (lwf_left L HL v Hv) as (ns & Hns & Hlo).
    pose proof (lists_in_order_NoDup _ _ _ Hnd Hlo) as Hnns. destruct Hlo as [Hlo _].
    assert (∀ x, x ∈ ns → x ∈ l1) as Hpre.
    { intros x Hx. apply Hlo in Hx as [Ha Hb]. rewrite Hl in Hb, Hnd.
      destruct Hb as (i & j & Hi & Hj & Hij). unfold pos in *. assert (j = length l1) as ->.
      { eapply NoDup_lookup; [exact Hnd|exact Hj|]. by apply list_lookup_middle. }
      rewrite lookup_app_l in Hi by done. by eapply elem_of_list_lookup_2. }
    assert (length ns ≤ length used) as Hle.
    { destruct l1 as [|u l0 _] using rev_ind.
      - destruct ns as [|x ns]; [cbn; lia|]. assert (x ∈ []) as Hx by (apply Hpre; left). by apply elem_of_nil in Hx.
      - destruct (Hlast l0 u eq_refl) as (nu & Hnu & Hlt).
        assert (vtx L u) as Hu by (apply (vs_vtx L HL); rewrite Hl; set_solver).
        destruct (lwf_left L HL u Hu) as (nu' & Hnu' & Hlu). rewrite Hnu in Hnu'. simplify_eq.
        enough (length ns ≤ S (length nu')) by lia.
        apply (Hslow u v); [|exact (lists_in_order_NoDup _ _ _ Hnd Hlu)|apply Hlu|done|done].
        exists (length l0). rewrite Hl, <- (assoc_L (++)). split; [by apply list_lookup_middle|].
        rewrite lookup_app_r by lia. by replace (S (length l0) - length l0) with 1 by lia. }
    enough (∃ st', cg_step L (colours, used) v = Ok st' ∧ is_Some (st'.1 !! v) ∧
       (∀ u, is_Some (colours !! u) → is_Some (st'.1 !! u)) ∧ length ns < length st'.2) as (st' & Hst & Hsv & Hmono & Hlt).
    { exists st'. split; [done|]. split; [by eapply cg_step_inv|]. split.
      - intros u. rewrite elem_of_app, elem_of_list_singleton. intros [?| ->]; auto.
      - intros l0 u [_ <-]%app_inj_tail. eauto. }
    unfold cg_step. rewrite Hns. cbn [mbind res_bind].
    assert (∃ cs, mapM (λ x, unwrap (colours !! x)) ns = Ok cs ∧ length cs = length ns) as (cs & -> & Hcl).
    { assert (∀ x, x ∈ ns → is_Some (colours !! x)) as Hsome by auto. clear -Hsome.
      induction ns as [|x ns IH]; [by exists []|]. destruct IH as (cs & Hcs & Hcl); [set_solver|].
      destruct (Hsome x) as [a Ha]; [set_solver|]. exists (a :: cs). cbn. rewrite Ha. cbn. rewrite Hcs. cbn. split; [done|lia]. }
    cbn [mbind res_bind]. destruct HI as (Hused & _). cbn [fst snd] in *.
    destruct (length cs =? length used) eqn:E.
    + eexists. split; [done|]. cbn [fst snd]. split_and!.
      * rewrite lookup_insert. eauto.
      * intros u Hu. destruct (decide (u = v)) as [->|]; [rewrite lookup_insert; eauto|by rewrite lookup_insert_ne].
      * rewrite app_length. cbn. lia.
    + apply Nat.eqb_neq in E. destruct (free_colour used cs) as (c & Hcu & Hcc); [|lia|].
      { rewrite Hused. apply NoDup_fmap_2; [apply _|]. apply NoDup_seq. }
      eexists. split; [done|]. cbn [fst snd]. destruct (head (filter (λ c, c ∉ cs) used)) as [c'|] eqn:Eh.
      * split_and!; [rewrite lookup_insert; eauto| |lia].
        intros u Hu. destruct (decide (u = v)) as [->|]; [rewrite lookup_insert; eauto|by rewrite lookup_insert_ne].
      * exfalso. apply head_None in Eh. assert (c ∈ filter (λ c, c ∉ cs) used) as Hin by (by apply elem_of_list_filter).
        rewrite Eh in Hin. by apply elem_of_nil in Hin.
  - unfold cg_step in Hf. rewrite Hf. cbn [mbind res_bind fst]. exists c. split; [done|]. intros v Hv.
    apply Hc. by apply (vs_vtx L HL).
Qed.
End with_wf.

Section with_iter.
Context `{HashIter}.

(** The order computed by [degeneracy]. *)
Lemma degeneracy_slow (G : graph) g : graph_wf G → loopless G →
  (∀ H k, H ≠ ∅ → min_degree G H k → k ≤ 129) →
  og_by_degeneracy G = Ok g → lgraph_wf (og_lgraph g) ∧ left_degrees_rise_slowly (og_lgraph g) ∧
    (∀ u, contains (og_graph g) u = contains G u) ∧ (∀ u v, adjacent (og_graph g) u v = adjacent G u v).
Proof.
  intros Hwf Hl Hmd Hg.
  destruct (C34_by_degeneracy G Hwf Hl) as (g' & lo & up & order & core & Hd & Hg' & HL & Hvs & Hc & Ha).
  rewrite Hg in Hg'. simplify_eq. split_and!; [done| |done|done].
  destruct (degeneracy_inv G Hwf Hl) as (s & Hs & HIv & Hin). pose proof Hd as Hd'. rewrite Hs in Hd'. injection Hd' as Hlo Hup Hor Hco.
  assert (vertices (og_lgraph g') = reverse (dgn_order s)) as Hor' by (symmetry; exact Hor). clear Hor.
  intros u v lu lv (i & Hi & Hj) Hndu Hlu Hndv Hlv. set (o := dgn_order s) in *.
  pose proof (gi_nodup _ _ HIv) as Hnd. fold o in Hnd.
  rewrite Hor' in Hi, Hj, Hlu, Hlv. fold o in Hi, Hj, Hlu, Hlv.
  pose proof (lookup_lt_Some _ _ _ Hj) as Lj. rewrite reverse_length in Lj.
  rewrite reverse_lookup in Hi, Hj by lia. set (k := length o - S (S i)) in *.
  replace (length o - S i) with (S k) in Hi by lia.
  assert (vtx G v) as Hv by (apply Hin; by eapply elem_of_list_lookup_2).
  assert (vtx G u) as Hu by (apply Hin; by eapply elem_of_list_lookup_2).
  assert (∀ x y, adj (og_lgraph g') x y ↔ adj G x y) as Haj by (intros x y; unfold adj; change (adjacent (og_lgraph g') x y) with (adjacent (og_graph g') x y); by rewrite Ha).
  assert (length lv ≤ rdeg G (take k o) v) as H1.
  { apply (left_degree_le G Hwf o k v lv Hnd Hj Hv Hndv). intros x [Hx ?]%Hlv. split; [by apply Haj|done]. }
  assert (rdeg G (take (S k) o) u ≤ length lu) as H2.
  { unfold rdeg. apply submseteq_length, NoDup_submseteq.
    - apply NoDup_filter. by apply nbrs_spec.
    - intros x [Hxo Hx]%elem_of_list_filter. apply (nbrs_spec G u Hwf Hu) in Hx. apply Hlu. rewrite Haj. split; [done|].
      assert (vtx G x) as Hxv by (eapply (wf_adj_vtx _ Hwf), (wf_adj_sym _ Hwf); exact Hx).
      apply Hin in Hxv. apply elem_of_list_lookup in Hxv as [j Hxj]. fold o in Hxj.
      assert (S k < j) as Hkj.
      { destruct (decide (j < S k)) as [Hlt|Hge].
        - exfalso. apply Hxo, elem_of_take. exists j. done.
        - destruct (decide (j = S k)) as [->|]; [|lia]. simplify_eq. by apply Hl in Hx. }
      pose proof (lookup_lt_Some _ _ _ Hxj) as Lx.
      exists (length o - S j), (length o - S (S k)). unfold pos. rewrite !reverse_lookup by lia.
      replace (length o - S (length o - S j)) with j by lia. replace (length o - S (length o - S (S k))) with (S k) by lia.
      split_and!; [done|done|lia]. }
  assert (v ∉ take k o) as Hvk.
  { intros (j & Hj' & Hlt)%elem_of_take. pose proof (NoDup_lookup _ _ _ _ Hnd Hj Hj'). lia. }
  assert (take (S k) o = take k o ++ [v]) as Htk by (by apply take_S_r).
  pose proof (rdeg_snoc G (take k o) v u Hwf Hu Hvk) as H3. rewrite <- Htk in H3.
  assert (rdeg G (take k o) u ≤ S (rdeg G (take (S k) o) u)) as H4 by (destruct (bool_decide _); lia).
  assert (calc_index (rdeg G (take k o) v) ≤ calc_index (rdeg G (take k o) u)) as H5.
  { apply (gi_min _ _ HIv k v u Hj Hu). intros (j & Hj' & Hlt)%elem_of_take. fold o in Hj'.
    pose proof (NoDup_lookup _ _ _ _ Hnd Hi Hj'). lia. }
  assert (calc_index (rdeg G (take k o) v) ≤ 129) as H6.
  { destruct (C24_lower_bound _ _ _ _ _ Hwf Hl Hd) as (_ & H' & HH & Hm & _); [eauto|].
    specialize (Hmd H' up HH Hm). assert (is_Some (dgn_core s !! v)) as [c Hcv].
    { apply (gi_core _ _ HIv). fold o. by eapply elem_of_list_lookup_2. }
    pose proof (gi_upper _ _ HIv k v c Hj Hcv). pose proof (gi_num _ _ HIv v c Hcv). fold o in H0. lia. }
  rewrite (calc_index_small _ H6) in H5. pose proof (calc_index_le (rdeg G (take k o) u)). lia.
Qed.

Lemma by_degeneracy_greedy (G : graph) : graph_wf G → loopless G →
  (∀ H k, H ≠ ∅ → min_degree G H k → k ≤ 129) →
  ∃ g c, og_by_degeneracy G = Ok g ∧ lgraph_wf (og_lgraph g) ∧ colour_greedy (og_lgraph g) = Ok c ∧
    (∀ v, is_Some (c !! v) ↔ vtx G v) ∧
    (∀ u v a b, adj G u v → c !! u = Some a → c !! v = Some b → a ≠ b).
Proof.
  intros Hwf Hl Hmd.
  destruct (C34_by_degeneracy G Hwf Hl) as (g & lo & up & order & core & Hd & Hg & HL & Hvs & _).
  destruct (degeneracy_slow G g Hwf Hl Hmd Hg) as (_ & Hslow & Hc & Ha).
  destruct (greedy_slow (og_lgraph g) HL Hslow) as (c & Hcol & Hall). exists g, c.
  destruct (colour_greedy_inv (og_lgraph g) HL c Hcol) as (used & _ & Hdom & Hprop & _). cbn [fst snd] in *.
  split_and!; [done|done|done| |].
  - intros v. split.
    + intros [a Ha']. apply Hdom in Ha' as [Hv _]. apply (vs_vtx _ HL) in Hv. unfold vtx in *. change (contains (og_graph g) v = true) in Hv. by rewrite Hc in Hv.
    + intros Hv. apply Hall. unfold vtx. change (contains (og_graph g) v = true). by rewrite Hc.
  - intros u v a b Huv Hu Hv. eapply (Hprop u v a b); [|done|done]. unfold adj. change (adjacent (og_graph g) u v = true). by rewrite Ha.
Qed.
End with_iter.
