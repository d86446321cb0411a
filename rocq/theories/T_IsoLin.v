(** Property theorem C90, second part: renaming the vertices of a linear graph renames the results
    of its algorithms and changes nothing else.  [H1] and [H2] are two arbitrary hash orders; the
    two graphs may be stored differently.  Sets are renamed by [set_image f] and the keys of maps by
    [map_image f], for which [f] is injective on all labels; [C90_extend] shows that this loses nothing. *)
From Verif Require Import Base Spec M_Graph M_Iterators M_EditGraph M_Algorithms M_OrdGraph M_DegenGraph M_Linear M_Domset
  S_Graph S_Linear S_Reach P_EditGraph P_EditGraph2 P_OrdGraph P_Linear P_Domset P_Determin P_Iso P_IsoLin
  T_EditGraph T_OrdGraph T_DegenGraph T_Determin T_Iso Examples.

(** A result is renamed: panics and non-termination correspond. *)
Definition renamed {A B} (g : A → B) (r1 : res A) (r2 : res B) : Prop :=
  match r1, r2 with Ok a, Ok b => b = g a | Panic, Panic => True | Diverge, Diverge => True | _, _ => False end.
Lemma renamed_rmap {A B} (g : A → B) r1 r2 : r2 = rmap g r1 → renamed g r1 r2.
Proof. intros ->. by destruct r1. Qed.

(** The image of a set, and a map with its keys renamed. *)
Definition set_image (f : N → N) (X : gset N) : gset N := set_map f X.
Definition map_image {A} (f : N → N) (m : gmap N A) : gmap N A := kmap f m.

(** ** C90: the algorithms of LinearGraph. *)
Theorem C90_linear (H1 H2 : HashIter) (f : N → N) (L1 L2 : lgraph) : Inj (=) (=) f → lgraph_wf L1 → lgraph_wf L2 → lrenames f L1 L2 →
  num_vertices L2 = num_vertices L1 ∧ num_edges L2 = num_edges L1 ∧
  (∀ u, contains L1 u = true → degree L2 (f u) = degree L1 u ∧ right_degree L2 (f u) = right_degree L1 u ∧
     renamed (map f) (left_neighbours L1 u) (left_neighbours L2 (f u))) ∧
  (∀ u, left_degree L2 (f u) = left_degree L1 u) ∧
  (∀ u r, renamed (map (set_image f)) (@right_bfs H1 L1 u r) (@right_bfs H2 L2 (f u) r)) ∧
  (∀ r, renamed (λ W, map_image f (map_image f <$> W)) (@wreach_sets H1 L1 r) (@wreach_sets H2 L2 r)) ∧
  (∀ r, renamed (map_image f) (@wreach_sizes H1 L1 r) (@wreach_sizes H2 L2 r)) ∧
  (∀ u r, renamed (map_image f) (@sreach_set H1 L1 u r) (@sreach_set H2 L2 (f u) r)) ∧
  (∀ r, renamed (λ W, map_image f (map_image f <$> W)) (@sreach_sets H1 L1 r) (@sreach_sets H2 L2 r)) ∧
  (∀ r, renamed (map_image f) (@sreach_sizes H1 L1 r) (@sreach_sizes H2 L2 r)) ∧
  count_max_cliques L2 = count_max_cliques L1 ∧
  renamed (map_image f) (colour_greedy L1) (colour_greedy L2) ∧
  (∀ r T, renamed (λ x : gset N * gmap N nat * option (gmap N N), (set_image f x.1.1, map_image f x.1.2, None))
     (@domset_with_target H1 L1 r false T) (@domset_with_target H2 L2 r false (map f T))) ∧
  (∀ r, renamed (λ x : gset N * gmap N nat * option (gmap N N), (set_image f x.1.1, map_image f x.1.2, None))
     (@domset H1 L1 r false) (@domset H2 L2 r false)).
Proof.
  intros Hf HL1 HL2 Hr. split_and!.
  - by apply (rn_num f).
  - assert (renames f L1 L2) as Hren.
    { split_and!; [intros; by apply (inj f)| |apply Hr]. intros x. pose proof (wf_vertices _ (lwf_graph _ HL2) x) as Hx. unfold vtx in Hx. rewrite <- Hx.
      rewrite (proj1 Hr), elem_of_list_fmap. setoid_rewrite (wf_vertices _ (lwf_graph _ HL1)). unfold vtx. naive_solver. }
    symmetry. by apply (C90_counts f L1 L2 (lwf_graph _ HL1) (lwf_graph _ HL2) Hren).
  - intros u Hu. split_and!; [by apply (rn_degree f)|by apply (rn_right f)|by apply renamed_rmap, rn_left].
  - intros u. by apply rn_left_degree.
  - intros u r. by apply renamed_rmap, (rn_right_bfs f H1 H2).
  - intros r. by apply renamed_rmap, (rn_wreach_sets f H1 H2).
  - intros r. by apply renamed_rmap, (rn_wreach_sizes f H1 H2).
  - intros u r. by apply renamed_rmap, (rn_sreach_set f H1 H2).
  - intros r. by apply renamed_rmap, (rn_sreach_sets f H1 H2).
  - intros r. by apply renamed_rmap, (rn_sreach_sizes f H1 H2).
  - by apply (rn_count f).
  - by apply renamed_rmap, (rn_greedy f).
  - intros r T. by apply renamed_rmap, (rn_domset f H1 H2).
  - intros r. unfold domset. rewrite (proj1 Hr). by apply renamed_rmap, (rn_domset f H1 H2).
Qed.

(** A renaming of finitely many labels agrees on them with one that is injective on all labels. *)
Theorem C90_extend (f : N → N) (L1 L2 : lgraph) : lgraph_wf L1 → lgraph_wf L2 → lrenames f L1 L2 →
  ∃ f', Inj (=) (=) f' ∧ (∀ u, contains L1 u = true → f' u = f u) ∧ lrenames f' L1 L2.
Proof.
  intros HL1 HL2 [Hvs Ha].
  assert (∀ u, u ∈ vertices L1 ↔ contains L1 u = true) as Hv by (intros u; apply (wf_vertices _ (lwf_graph _ HL1))).
  assert (∀ u v, u ∈ vertices L1 → v ∈ vertices L1 → f u = f v → u = v) as Hinj.
  { pose proof (wf_vertices_nodup _ (lwf_graph _ HL2)) as Hnd. rewrite Hvs in Hnd. clear -Hnd.
    induction (vertices L1) as [|x l IH]; [by intros u v ?%elem_of_nil|]. cbn [fmap list_fmap] in Hnd. apply NoDup_cons in Hnd as [Hx Hnd].
    intros u v [->|Hu]%elem_of_cons [->|Hv]%elem_of_cons Hf; [done| | |by apply IH].
    - destruct Hx. rewrite Hf. by apply elem_of_list_fmap_1.
    - destruct Hx. rewrite <- Hf. by apply elem_of_list_fmap_1. }
  set (M := foldr N.max 0%N (f <$> vertices L1)).
  assert (∀ u, u ∈ vertices L1 → (f u <= M)%N) as HM.
  { unfold M. clear. induction (vertices L1) as [|x l IH]; [by intros u ?%elem_of_nil|]. intros u [->|Hu]%elem_of_cons; cbn; [lia|].
    specialize (IH u Hu). cbn in IH. lia. }
  set (f' := λ u, if bool_decide (u ∈ vertices L1) then f u else (u + M + 1)%N).
  assert (∀ u, u ∈ vertices L1 → f' u = f u) as Hf' by (intros u Hu; unfold f'; by rewrite bool_decide_true).
  exists f'. split_and!.
  - intros u v. unfold f'. destruct (decide (u ∈ vertices L1)) as [Hu|Hu], (decide (v ∈ vertices L1)) as [Hw|Hw].
    + rewrite !bool_decide_true by done. by apply Hinj.
    + rewrite bool_decide_true, bool_decide_false by done. specialize (HM u Hu). lia.
    + rewrite bool_decide_false, bool_decide_true by done. specialize (HM v Hw). lia.
    + rewrite !bool_decide_false by done. lia.
  - intros u Hu. by apply Hf', Hv.
  - split.
    + rewrite Hvs. apply list_fmap_ext. intros i u Hu. symmetry. apply Hf'. by eapply elem_of_list_lookup_2.
    + intros u v Hu Hw. rewrite !Hf' by (by apply Hv). by apply Ha.
Qed.

(** OrdGraphs built from renamed graphs in corresponding orders are renamed. *)
Theorem C90_ordgraph (H1 H2 : HashIter) (f : N → N) (G1 G2 : graph) (order : list N) : graph_wf G1 → graph_wf G2 → loopless G1 → renames f G1 G2 →
  NoDup order → (∀ u, u ∈ order ↔ contains G1 u = true) →
  ∃ g1 g2, og_with_ordering G1 order = Ok g1 ∧ og_with_ordering G2 (f <$> order) = Ok g2 ∧
    lgraph_wf (@og_lgraph H1 g1) ∧ lgraph_wf (@og_lgraph H2 g2) ∧ lrenames f (@og_lgraph H1 g1) (@og_lgraph H2 g2).
Proof.
  intros Hw1 Hw2 Hl (Hi & Hv & Ha) Hnd Ho.
  destruct (@C34_with_ordering H1 G1 order Hw1 Hl Hnd) as (g1 & Hg1 & Hlw1 & Hv1 & _ & _ & Hc1 & Ha1 & _).
  { intros u v Huv. apply Ho. by eapply (wf_adj_vtx _ Hw1). }
  destruct (@C34_with_ordering H2 G2 (f <$> order) Hw2) as (g2 & Hg2 & Hlw2 & Hv2 & _ & _ & Hc2 & Ha2 & _).
  { intros x Hx. pose proof Hx as (u & Hu & ->)%(wf_adj_vtx _ Hw2)%Hv. apply (Hl u). unfold adj in *. by rewrite Ha. }
  { apply NoDup_fmap_2_strong; [|done]. intros x y Hx%Ho Hy%Ho. by apply Hi. }
  { intros x y (u & Hu & ->)%(wf_adj_vtx _ Hw2)%Hv. by apply elem_of_list_fmap_1, Ho. }
  exists g1, g2. split_and!; [done..|]. split.
  - change (vertices (@og_graph H2 g2) = f <$> vertices (@og_graph H1 g1)). congruence.
  - intros u v Hu Hvv. change (adjacent (@og_graph H1 g1) u v = adjacent (@og_graph H2 g2) (f u) (f v)). rewrite Ha1, Ha2.
    apply Ha; apply Ho; by apply Hc1.
Qed.

(** DegenGraph::normalize only renames: the original graph is the normalised one with every label
    replaced by what the returned map says. *)
Theorem C90_degen_normalize (H1 : HashIter) (G : graph) (order : list N) (g : degengraph) : graph_wf G → loopless G → NoDup order →
  (∀ u, u ∈ order ↔ contains G u = true) → (N.of_nat (3 * length order + num_edges G) <= u32_mod)%N → order ≠ [] → dg_with_ordering G order = Ok g →
  ∃ n2o g' f, dg_normalize g = Ok (n2o, g') ∧ lgraph_wf (dg_lgraph g) ∧ lgraph_wf (dg_lgraph g') ∧
    Inj (=) (=) f ∧ (∀ w v, n2o !! w = Some v → f w = v) ∧ lrenames f (dg_lgraph g') (dg_lgraph g).
Proof.
  intros Hw Hl Hnd Ho Hsz Hne Hg.
  destruct (C37_with_ordering G order Hw Hl Hnd Ho Hsz) as (g0 & Hg0 & Hlw & _ & Hv0 & _ & _ & _ & _ & Hc0 & Ha0 & _).
  rewrite Hg in Hg0. injection Hg0 as <-.
  destruct (C38_normalize_partial G order g Hw Hl Hnd Ho Hsz Hne Hg) as (n2o & g' & order' & Hn & Ho' & Hm & Hlw' & Hv' & _ & _ & _ & Hadj & _).
  set (f0 := λ w : N, default 0%N (n2o !! w)).
  assert (∀ i u, order !! i = Some u → f0 (N.of_nat i) = u) as Hf0.
  { intros i u Hi. unfold f0. rewrite (proj2 (Hm (N.of_nat i) u)); [done|]. by rewrite Nat2N.id. }
  assert (∀ w, contains (dg_lgraph g') w = true → ∃ i u, w = N.of_nat i ∧ order !! i = Some u) as Hcon.
  { intros w Hcw. apply (wf_vertices _ (lwf_graph _ Hlw')) in Hcw. change (w ∈ vertices (dg_graph g')) in Hcw.
    rewrite Hv', Ho' in Hcw. apply elem_of_list_fmap in Hcw as (i & -> & [_ Hi]%elem_of_seq).
    destruct (lookup_lt_is_Some_2 order i Hi) as [u Hu]. eauto. }
  destruct (C90_extend f0 (dg_lgraph g') (dg_lgraph g) Hlw' Hlw) as (f & Hf & Hff & Hren).
  { split.
    - change (vertices (dg_graph g) = f0 <$> vertices (dg_graph g')). rewrite Hv0, Hv', Ho'. apply list_eq. intros i.
      rewrite !list_lookup_fmap. destruct (order !! i) as [u|] eqn:E.
      + rewrite lookup_seq_lt by (by eapply lookup_lt_Some). cbn. by rewrite (Hf0 i u).
      + rewrite lookup_seq_ge by (by apply lookup_ge_None). done.
    - intros u v (i & x & -> & Hi)%Hcon (j & y & -> & Hj)%Hcon. rewrite (Hf0 i x Hi), (Hf0 j y Hj).
      change (adjacent (dg_graph g') (N.of_nat i) (N.of_nat j) = adjacent (dg_graph g) x y). rewrite Ha0. by apply Hadj. }
  exists n2o, g', f. split_and!; try done. intros w v Hwv. rewrite Hff; [unfold f0; by rewrite Hwv|].
  apply (wf_vertices _ (lwf_graph _ Hlw')). change (w ∈ vertices (dg_graph g')). rewrite Hv', Ho'.
  apply Hm in Hwv. apply elem_of_list_fmap. exists (N.to_nat w). rewrite N2Nat.id. split; [done|]. apply elem_of_seq. apply lookup_lt_Some in Hwv. lia.
Qed.

(** ** Example: the ten-vertex graph of C82 in an OrdGraph, and with label x replaced by 10x+7 and
    the hash order reversed. *)
Definition ex_det_ren_edges : list (N * N) := (λ e : N * N, (ex_ren e.1, ex_ren e.2)) <$> ex_det_edges.
Definition ex_det_ren_order : list N := ex_ren <$> ex_det_order.
Example ex_C90_lin_hyps : lgraph_wf (ex_lin ex_det_edges ex_det_order) ∧ lgraph_wf (ex_lin ex_det_ren_edges ex_det_ren_order) ∧
  lrenames ex_ren (ex_lin ex_det_edges ex_det_order) (ex_lin ex_det_ren_edges ex_det_ren_order) ∧ Inj (=) (=) ex_ren.
Proof.
  destruct (ex_lin_spec ex_det_edges ex_det_order) as (_ & Hl1 & Hv1 & Hc1 & Ha1); [vm_compute; reflexivity|].
  destruct (ex_lin_spec ex_det_ren_edges ex_det_ren_order) as (_ & Hl2 & Hv2 & Hc2 & Ha2); [vm_compute; reflexivity|].
  split_and!; [exact Hl1|exact Hl2| |exact ex_ren_inj]. split; [by rewrite Hv1, Hv2|]. intros u v _ _.
  assert (∀ a b, (ex_ren a, ex_ren b) ∈ ex_det_ren_edges ↔ (a, b) ∈ ex_det_edges) as Hab.
  { intros a b. unfold ex_det_ren_edges. rewrite elem_of_list_fmap. split.
    - intros ([c d] & Heq & Hin). cbn in Heq. injection Heq as Hc Hd. apply ex_ren_inj in Hc, Hd. by subst.
    - intros Hin. exists (a, b). split; [reflexivity|exact Hin]. }
  specialize (Ha1 u v). specialize (Ha2 (ex_ren u) (ex_ren v)). rewrite !Hab, <- Ha1 in Ha2.
  clear -Ha2. generalize dependent (adjacent (ex_lin ex_det_ren_edges ex_det_ren_order) (ex_ren u) (ex_ren v)).
  generalize (adjacent (ex_lin ex_det_edges ex_det_order) u v). clear. intros [] []; naive_solver.
Qed.
Example ex_C90_lin :
  match @domset std_iter (ex_lin ex_det_edges ex_det_order) 1 false, @domset rev_iter (ex_lin ex_det_ren_edges ex_det_ren_order) 1 false with
  | Ok (D1, dd1, _), Ok (D2, dd2, _) => elements D1 = [1; 3; 8; 6]%N ∧ bool_decide (D2 = set_image ex_ren D1) = true ∧ bool_decide (dd2 = map_image ex_ren dd1) = true
  | _, _ => False
  end.
Proof. vm_compute. split_and!; reflexivity. Qed.

Print Assumptions C90_linear.
Print Assumptions C90_extend.
Print Assumptions C90_ordgraph.
Print Assumptions C90_degen_normalize.
