(** Property theorem C88: domset with a witness returns, whatever the number of targets, on graphs
    with small weakly reachable sets, and its witness certifies the quality of the result. *)
From Verif Require Import Base Spec M_Graph M_Iterators M_EditGraph M_Algorithms M_Operations M_OrdGraph M_Linear M_Colouring M_Domset
  S_Graph S_Linear S_Reach S_Cliques P_Graph P_EditGraph P_EditGraph2 P_Operations P_OrdGraph P_OrdGraph2 P_DegenGraph P_Linear P_Linear2
  P_Wdist P_Greedy P_Domset P_Conflict P_Approx P_Certify T_Algorithms T_OrdGraph T_Linear T_Domset T_Approx T_EndToEnd Examples.

(** Some colour class holds its share of a coloured set. *)
Lemma pigeonhole (S : gset N) (c : gmap N N) (m : nat) :
  (∀ v, v ∈ S → ∃ a, c !! v = Some a ∧ (a < N.of_nat m)%N) →
  ∃ a l, NoDup l ∧ (∀ v, v ∈ l → v ∈ S ∧ c !! v = Some a) ∧ size S ≤ m * length l.
Proof.
  revert S. induction m as [|m IH]; intros S HS.
  - exists 0%N, []. split_and!; [constructor|set_solver|]. assert (S = ∅) as ->; [|by rewrite size_empty].
    apply elem_of_equiv_empty_L. intros v (a & _ & Ha)%HS. lia.
  - set (K := filter (λ v, c !! v = Some (N.of_nat m)) S).
    destruct (IH (S ∖ K)) as (a & l & Hnd & Hl & Hsz).
    { intros v [Hv Hn]%elem_of_difference. destruct (HS v Hv) as (a & Ha & Hlt). exists a. split; [done|].
      assert (a ≠ N.of_nat m); [|lia]. intros ->. apply Hn, elem_of_filter. done. }
    assert (size S ≤ size K + size (S ∖ K)) as H1.
    { rewrite <- size_union_alt. apply subseteq_size. intros v Hv. destruct (decide (v ∈ K)); set_solver. }
    destruct (decide (length l ≤ size K)) as [Hle|Hle].
    + exists (N.of_nat m), (elements K). split_and!; [apply NoDup_elements| |].
      * intros v Hv%elem_of_elements. apply elem_of_filter in Hv as [? ?]. done.
      * change (length (elements K)) with (size K). nia.
    + exists a, l. split_and!; [done| |nia]. intros v Hv. destruct (Hl v Hv) as [Hv1 ?]. split; [set_solver|done].
Qed.

Section with_iter.
Context `{HI : HashIter}.

(** Greedy colouring of a graph whose subgraphs all have a vertex of degree at most [b]. *)
Lemma ds_colours_sparse (h : editgraph) (b : nat) : eg_wf h → (∀ x, ¬ ea h x x) → b ≤ 129 →
  (∀ H k, H ≠ ∅ → min_degree (eg_graph h) H k → k ≤ b) →
  ∃ c, ds_colours h = Ok c ∧ (∀ v, is_Some (c !! v) ↔ ev h v) ∧ ∀ v a, c !! v = Some a → (a < N.of_nat (b + 1))%N.
Proof.
  intros Hh Hl Hb Hd. pose proof (eg_graph_wf h Hh) as Hg. pose proof (eg_loopless h Hh Hl) as Hll.
  destruct (by_degeneracy_greedy (eg_graph h) Hg Hll) as (g & c & Hok & HL & Hc & Hdom & _).
  { intros H k Hne Hm. etrans; [by apply (Hd H k)|done]. }
  exists c. unfold ds_colours. rewrite Hok. cbn [mbind res_bind]. split_and!; [done|exact Hdom|].
  destruct (C45_colour_greedy_partial (og_lgraph g) c HL Hc) as (_ & _ & d & Hmd & Hlt).
  assert (d ≤ b) as Hdb; [|intros v a Hv; specialize (Hlt v a Hv); lia].
  destruct (C34_by_degeneracy (eg_graph h) Hg Hll) as (g' & lo & up & order & core & Hdeg & Hok' & _ & Hvs & _ & Ha).
  rewrite Hok in Hok'. injection Hok' as <-.
  destruct (C34_degree_maps (og_lgraph g) HL) as (_ & d' & _ & Hmd' & _ & _ & Hmax & _). rewrite Hmd in Hmd'. injection Hmd' as <-.
  destruct Hmax as [->|(u & l & Hu & Hul & <-)]; [lia|].
  destruct (lwf_left (og_lgraph g) HL u Hu) as (l' & Hul' & Hlo). rewrite Hul in Hul'. injection Hul' as <-.
  pose proof (lists_in_order_NoDup _ _ _ (vs_nodup (og_lgraph g) HL) Hlo) as Hnd. destruct Hlo as [Hlo _].
  pose proof (by_degeneracy_left' (eg_graph h) b lo up order core Hg Hll Hd Hdeg u l) as Hlen.
  unfold queue_bound in Hlen. rewrite decide_True in Hlen by done. apply Hlen. split; [done|].
  intros x Hx. apply Hlo in Hx as [Hx1 Hx2]. split.
  - unfold adj in *. rewrite <- (Ha u x). exact Hx1.
  - rewrite <- Hvs. exact Hx2.
Qed.

(** ** C88 *)
Theorem C88_witness_returned (L : lgraph) (r g : nat) (T : list N) : lgraph_wf L → radius_ok r → wreach_at_most L (2 * r) g →
  let b := 2 * ((g + 1) * (4 * r * r + 1) - 1) in b ≤ 129 →
  ∃ D dd c, domset_with_target L r true T = Ok (D, dd, Some c) ∧
    (∀ v a, c !! v = Some a → (a <= N.of_nat b)%N) ∧
    ∃ a l, NoDup l ∧ (∀ v, v ∈ l → c !! v = Some a) ∧ size D * (4 * r * r + 1) ≤ length l * ((b + 1) * (4 * r * r + 1 + g)).
Proof.
  intros HL Hr Hw b Hb. unfold domset_with_target.
  destruct (g_is_empty L || bool_decide ((collect_set T : gset N) = ∅)).
  { exists ∅, ∅, ∅. split; [done|]. split; [done|]. exists 0%N, []. split_and!; [constructor|set_solver|]. rewrite size_empty. lia. }
  unfold radius_ok in Hr. pose proof (radius_small r Hr) as Hr1.
  replace (N.of_nat (2 * r) * N.of_nat (2 * r) <? u32_mod)%N with true by (symmetry; by apply N.ltb_lt).
  cbn [assert_res mbind res_bind]. destruct (ds_order_spec L HL) as (order & -> & Ho). cbn [mbind res_bind].
  destruct (wreach_sets_spec L HL r) as (W & HWok & HWm); [lia|]. rewrite HWok. cbn [mbind res_bind].
  set (cutoff := 2 * r * (2 * r)).
  destruct (ds_loop_spec L HL r W HWm (collect_set T) r cutoff order Ho) as (st & Hst & Hinv). rewrite Hst.
  pose proof (cnt_loop L HL r W HWm (collect_set T) cutoff order st Ho Hst) as Hci. cbn [mbind res_bind negb].
  destruct (wreach_sets_spec L HL (2 * r)) as (W2 & HW2 & HWm2); [lia|]. rewrite HW2. cbn [mbind res_bind].
  assert (∀ x, x ∈ ds_scat st → vtx L x) as Hsv.
  { intros x Hx. apply (di_dom _ _ _ _ _ Hinv). by apply (di_scat _ _ _ _ _ Hinv). }
  destruct (ds_conflict_spec L HL (2 * r) W2 HWm2 true (ds_scat st) r Hsv) as (h & -> & Hh & Hev & Hea); [done|done|]. cbn [mbind res_bind].
  assert (∀ u Wu, W2 !! u = Some Wu → size Wu ≤ g) as Hg2.
  { intros u Wu Hu. rewrite <- (size_dom Wu). unfold size, set_size. cbn. apply (Hw u); [apply NoDup_elements|].
    intros v Hv%elem_of_elements. apply elem_of_dom in Hv as [k Hk]. apply (proj2 HWm2 u Wu Hu) in Hk as (? & ? & ? & _). eauto. }
  assert (∀ u Wu, W !! u = Some Wu → size Wu ≤ g) as Hg1.
  { intros u Wu Hu. rewrite <- (size_dom Wu). unfold size, set_size. cbn. apply (Hw u); [apply NoDup_elements|].
    intros v Hv%elem_of_elements. apply elem_of_dom in Hv as [k Hk]. apply (proj2 HWm u Wu Hu) in Hk as (? & ? & ? & _).
    split; [done|]. exists k. split; [lia|done]. }
  assert (∀ x, ¬ ea h x x) as Hll by (intros x (_ & _ & ? & _)%Hea; done).
  destruct (ds_colours_sparse h b Hh Hll Hb) as (c & -> & Hdom & Hcol).
  { intros H k Hne Hm. unfold b. replace (4 * r * r + 1) with (S cutoff) by (unfold cutoff; lia).
    apply (out_degeneracy (cout W W2 (ds_scat st)) (λ x y, ea h x y) _ k H Hne).
    - intros x Hx. apply (cout_size L HL r W W2 HWm HWm2 cutoff g Hg2 st Hci Hsv). apply Hev. by apply (Hm x Hx).
    - intros x y (Hx & Hy & Hxy & Hd)%Hea. by apply (cout_cover L HL r W W2 HWm HWm2 st Hsv).
    - intros x Hx. destruct (Hm x Hx) as (_ & l & ?). exists l. done. }
  cbn [mbind res_bind]. exists (ds_dom st), (ds_dd st), c. split; [done|]. split.
  - intros v a Hv. specialize (Hcol v a Hv). lia.
  - destruct (pigeonhole (ds_scat st) c (b + 1)) as (a & l & Hnd & Hl & Hsz).
    { intros v Hv. destruct (proj2 (Hdom v)) as [a Ha]; [by apply Hev|]. exists a. split; [done|]. by eapply Hcol. }
    exists a, l. split_and!; [done|intros v Hv; by apply Hl|].
    destruct (loop_size L HL r W HWm (collect_set T) cutoff st g (list_to_set (vertices L)) order Hinv Hci Hg1) as (_ & Hds & _).
    { intros x Hx%elem_of_list_to_set. by apply (vs_vtx L HL). }
    { intros v _ Hv. exists v. split; [apply elem_of_list_to_set; by apply (vs_vtx L HL)|]. exists 0. split; [lia|constructor]. }
    replace (4 * r * r + 1) with (S cutoff) by (unfold cutoff; lia). etrans; [exact Hds|].
    etrans; [apply Nat.mul_le_mono_r, Hsz|]. lia.
Qed.

(** The result can be checked against its own witness: some colour class is at most as large as any
    dominating set, and at least as large as the result up to a constant. *)
Theorem C88_certificate (L : lgraph) (r g : nat) (T : list N) : lgraph_wf L → radius_ok r → wreach_at_most L (2 * r) g →
  let b := 2 * ((g + 1) * (4 * r * r + 1) - 1) in b ≤ 129 →
  ∃ D dd c a l, domset_with_target L r true T = Ok (D, dd, Some c) ∧ r_dominates L r T D ∧
    NoDup l ∧ (∀ v, v ∈ l → c !! v = Some a) ∧
    size D * (4 * r * r + 1) ≤ length l * ((b + 1) * (4 * r * r + 1 + g)) ∧
    ∀ X, r_dominates L r T X → length l ≤ size X.
Proof.
  intros HL Hr Hw b Hb. destruct (C88_witness_returned L r g T HL Hr Hw Hb) as (D & dd & c & Hok & _ & a & l & Hnd & Hl & Hsz).
  exists D, dd, c, a, l. split_and!; [done| |done|done|exact Hsz|].
  - destruct (C46_with_witness_partial L r T HL Hr) as (HH & _). destruct (HH D dd _ Hok) as [HD1 HD2]. split; [done|].
    intros v Hv1 Hv2. destruct (HD2 v Hv1 Hv2) as (k & x & _ & Hk & Hx & n & Hn & Hs). exists x. split; [done|]. exists n. split; [lia|done].
  - intros X HX. exact (C81_witness_lower_bound L r T D dd c X HL Hok HX a l Hnd Hl).
Qed.

(** A check of the hypothesis by computation. *)
Lemma wreach_at_most_check (L : lgraph) (r g : nat) : lgraph_wf L → (N.of_nat r + 1 < u32_mod)%N →
  match wreach_sets L r with Ok W => forallb (λ p : N * gmap N nat, size p.2 <=? g) (map_to_list W) | _ => false end = true →
  wreach_at_most L r g.
Proof.
  intros HL Hr Hc. destruct (wreach_sets_spec L HL r Hr) as (W & HW & HWm). rewrite HW in Hc.
  rewrite forallb_forall in Hc. intros u l Hnd Hl. destruct l as [|v0 l0] eqn:El; [cbn; lia|]. rewrite <- El in *.
  assert (vtx L u) as Hu.
  { destruct (Hl v0) as [(i & j & _ & Hj & _) _]; [rewrite El; left|]. apply (vs_vtx L HL). by eapply elem_of_list_lookup_2. }
  destruct (wm_get L r W HWm u Hu) as (Wu & HWu & _).
  specialize (Hc (u, Wu) (proj1 (elem_of_list_In _ _) (proj2 (elem_of_map_to_list W u Wu) HWu))). apply Nat.leb_le in Hc. cbn in Hc.
  etrans; [|exact Hc]. rewrite <- (size_dom Wu). unfold size, set_size. cbn. apply submseteq_length, NoDup_submseteq; [done|].
  intros v Hv. destruct (Hl v Hv) as (Hb & k & Hk & Hwk). apply elem_of_elements, elem_of_dom.
  assert (u ≠ v) as Hne by (intros ->; destruct Hb as (i & j & Hi & Hj & ?); assert (i = j) by (eapply NoDup_lookup; [apply (vs_nodup _ HL)|done|done]); lia).
  destruct (wm_reach L HL r W HWm u v k Hu Hne Hk Hwk) as (w & j & Hw & Hj & _). simplify_eq. by exists j.
Qed.
End with_iter.

(** ** Examples: a path on 140 vertices, all of them targets. *)
Local Existing Instance std_iter.
Example ex_C88_hyp : lgraph_wf ex_path140 ∧ radius_ok 1 ∧ wreach_at_most ex_path140 (2 * 1) 2 ∧
  2 * ((2 + 1) * (4 * 1 * 1 + 1) - 1) ≤ 129 ∧ 130 < size (list_to_set (nrange 0 140) : gset N).
Proof.
  destruct (ex_lin_spec ex_path140_edges (nrange 0 140)) as (_ & Hwf & _); [vm_compute; exact eq_refl|].
  split; [exact Hwf|]. split; [vm_compute; exact eq_refl|]. split; [|split].
  - apply wreach_at_most_check; [exact Hwf|vm_compute; exact eq_refl|vm_compute; exact eq_refl].
  - apply (bool_decide_unpack _). vm_compute. exact I.
  - apply (bool_decide_unpack _). vm_compute. exact I.
Qed.
Example ex_C88 :
  match domset_with_target ex_path140 1 true (nrange 0 140) with
  | Ok (D, dd, Some c) => size D = 69 ∧ size (filter (λ p : N * N, p.2 = 0%N) c) = 35
  | _ => False
  end.
Proof. vm_compute. done. Qed.

Print Assumptions C88_witness_returned.
Print Assumptions C88_certificate.
