(** EditDigraph refines the abstract digraph. *)
From Verif Require Import Base Spec M_Graph M_Iterators M_EditGraph M_EditDigraph S_Graph S_Digraph
  P_EditGraph P_EditGraph2 P_Iterators.

Definition d_wf (D : adigraph) : Prop := ∀ e, e ∈ da D → e.1 ∈ dv D ∧ e.2 ∈ dv D.
Definition d_out (D : adigraph) (u : N) : gset N := set_map snd (filter (λ e, e.1 = u) (da D)).
Definition d_in (D : adigraph) (v : N) : gset N := set_map fst (filter (λ e, e.2 = v) (da D)).

Lemma elem_of_d_out D u v : v ∈ d_out D u ↔ (u, v) ∈ da D.
Proof.
  unfold d_out. rewrite elem_of_map. setoid_rewrite elem_of_filter. split.
  - intros ([a b] & -> & <- & He). done.
  - intros He. by exists (u, v).
Qed.
Lemma elem_of_d_in D u v : u ∈ d_in D v ↔ (u, v) ∈ da D.
Proof.
  unfold d_in. rewrite elem_of_map. setoid_rewrite elem_of_filter. split.
  - intros ([a b] & -> & <- & He). done.
  - intros He. by exists (u, v).
Qed.

(** The concrete state is a function of the abstract digraph. *)
Record ed_rep (g : editdigraph) (D : adigraph) : Prop := {
  drep_wf : d_wf D;
  drep_out : ∀ u, ed_out g !! u = if decide (u ∈ dv D) then Some (d_out D u) else None;
  drep_in : ∀ u, ed_in g !! u = if decide (u ∈ dv D) then Some (d_in D u) else None;
  drep_outd : ∀ u, ed_outd g !! u = if decide (u ∈ dv D) then Some (size (d_out D u)) else None;
  drep_ind : ∀ u, ed_ind g !! u = if decide (u ∈ dv D) then Some (size (d_in D u)) else None;
  drep_m : ed_m g = size (da D);
}.

Lemma drep_contains g D u : ed_rep g D → ed_contains g u = bool_decide (u ∈ dv D).
Proof.
  intros HR. unfold ed_contains. rewrite (drep_out _ _ HR).
  case_decide; [by rewrite bool_decide_true|by rewrite bool_decide_false].
Qed.
Lemma drep_has_arc g D u v : ed_rep g D → ed_has_arc g u v = bool_decide ((u, v) ∈ da D).
Proof.
  intros HR. unfold ed_has_arc. rewrite (drep_out _ _ HR). case_decide as Hu.
  - apply bool_decide_ext. apply elem_of_d_out.
  - rewrite bool_decide_false; [done|]. intros He. by destruct (drep_wf _ _ HR _ He).
Qed.

Lemma ed_new_rep : ed_rep ed_new d_empty.
Proof. by split. Qed.

Lemma ed_add_vertex_rep g D u :
  ed_rep g D →
  ed_rep (ed_add_vertex g u).1 (ADigraph ({[u]} ∪ dv D) (da D)) ∧
  (ed_add_vertex g u).2 = bool_decide (u ∉ dv D).
Proof.
  intros HR. unfold ed_add_vertex. pose proof (drep_out _ _ HR u) as Ho.
  destruct (decide (u ∈ dv D)) as [Hu|Hu]; rewrite Ho; cbn.
  - split; [|by rewrite bool_decide_false; naive_solver].
    assert ({[u]} ∪ dv D = dv D) as -> by set_solver. destruct D; done.
  - split; [|by rewrite bool_decide_true].
    assert (d_out D u = ∅) as Eo.
    { apply set_eq. intros x. rewrite elem_of_d_out. split; [|set_solver].
      intros He. by destruct (drep_wf _ _ HR _ He). }
    assert (d_in D u = ∅) as Ei.
    { apply set_eq. intros x. rewrite elem_of_d_in. split; [|set_solver].
      intros He. by destruct (drep_wf _ _ HR _ He). }
    change (d_out D u) with (d_out (ADigraph ({[u]} ∪ dv D) (da D)) u) in Eo.
    change (d_in D u) with (d_in (ADigraph ({[u]} ∪ dv D) (da D)) u) in Ei.
    split; cbn.
    + intros e He. destruct (drep_wf _ _ HR _ He). set_solver.
    + intros x. destruct (decide (x = u)) as [->|].
      * rewrite lookup_insert, decide_True by set_solver. by rewrite Eo.
      * rewrite lookup_insert_ne, (drep_out _ _ HR) by done. repeat case_decide; set_solver.
    + intros x. destruct (decide (x = u)) as [->|].
      * rewrite lookup_insert, decide_True by set_solver. by rewrite Ei.
      * rewrite lookup_insert_ne, (drep_in _ _ HR) by done. repeat case_decide; set_solver.
    + intros x. destruct (decide (x = u)) as [->|].
      * rewrite lookup_insert, decide_True by set_solver. by rewrite Eo.
      * rewrite lookup_insert_ne, (drep_outd _ _ HR) by done. repeat case_decide; set_solver.
    + intros x. destruct (decide (x = u)) as [->|].
      * rewrite lookup_insert, decide_True by set_solver. by rewrite Ei.
      * rewrite lookup_insert_ne, (drep_ind _ _ HR) by done. repeat case_decide; set_solver.
    + apply HR.
Qed.

Lemma d_out_add V A u v x :
  d_out (ADigraph V ({[(u, v)]} ∪ A)) x = (if decide (x = u) then {[v]} else ∅) ∪ d_out (ADigraph V A) x.
Proof.
  apply set_eq. intros y. rewrite elem_of_d_out, elem_of_union, elem_of_d_out. cbn.
  rewrite elem_of_union, elem_of_singleton. case_decide; set_solver.
Qed.
Lemma d_in_add V A u v x :
  d_in (ADigraph V ({[(u, v)]} ∪ A)) x = (if decide (x = v) then {[u]} else ∅) ∪ d_in (ADigraph V A) x.
Proof.
  apply set_eq. intros y. rewrite elem_of_d_in, elem_of_union, elem_of_d_in. cbn.
  rewrite elem_of_union, elem_of_singleton. case_decide; set_solver.
Qed.
Lemma d_out_remove V A u v x :
  d_out (ADigraph V (A ∖ {[(u, v)]})) x = d_out (ADigraph V A) x ∖ (if decide (x = u) then {[v]} else ∅).
Proof.
  apply set_eq. intros y. rewrite elem_of_d_out, elem_of_difference, elem_of_d_out. cbn.
  rewrite elem_of_difference, elem_of_singleton. case_decide; set_solver.
Qed.
Lemma d_in_remove V A u v x :
  d_in (ADigraph V (A ∖ {[(u, v)]})) x = d_in (ADigraph V A) x ∖ (if decide (x = v) then {[u]} else ∅).
Proof.
  apply set_eq. intros y. rewrite elem_of_d_in, elem_of_difference, elem_of_d_in. cbn.
  rewrite elem_of_difference, elem_of_singleton. case_decide; set_solver.
Qed.

Lemma ed_add_arc_rep g D u v :
  ed_rep g D →
  ∃ g', ed_add_arc g u v = Ok (g', bool_decide ((u, v) ∉ da D)) ∧
    ed_rep g' (ADigraph ({[u]} ∪ ({[v]} ∪ dv D)) ({[(u, v)]} ∪ da D)).
Proof.
  intros HR. unfold ed_add_arc.
  destruct (ed_add_vertex_rep g D u HR) as [HR1 _].
  destruct (ed_add_vertex_rep _ _ v HR1) as [HR2 _]. cbn [dv da] in HR2.
  set (g2 := (ed_add_vertex (ed_add_vertex g u).1 v).1) in *. clearbody g2. clear HR1 HR. rename HR2 into HR.
  assert ({[v]} ∪ ({[u]} ∪ dv D) = {[u]} ∪ ({[v]} ∪ dv D)) as HV by set_solver. rewrite HV in HR. clear HV.
  set (V := {[u]} ∪ ({[v]} ∪ dv D)) in *.
  assert (u ∈ V ∧ v ∈ V) as [Hu Hv] by (unfold V; set_solver). clearbody V.
  destruct D as [V0 A]; cbn in *. clear V0.
  rewrite (drep_has_arc _ _ _ _ HR). cbn. case_bool_decide as He; cbn.
  - exists g2. split; [by rewrite bool_decide_false; naive_solver|].
    assert ({[(u, v)]} ∪ A = A) as -> by set_solver. done.
  - rewrite (bool_decide_true _ He).
    rewrite (drep_out _ _ HR), (drep_in _ _ HR), (drep_outd _ _ HR), (drep_ind _ _ HR). cbn.
    rewrite !(decide_True _ _ Hu), !(decide_True _ _ Hv). cbn.
    eexists; split; [done|]. split; cbn.
    + intros e [->%elem_of_singleton|He']%elem_of_union; [done|]. by apply (drep_wf _ _ HR).
    + intros x. rewrite d_out_add. destruct (decide (x = u)) as [->|].
      * rewrite lookup_insert, decide_True by done. f_equal.
      * rewrite lookup_insert_ne, (drep_out _ _ HR) by done. cbn. case_decide; [|done]. f_equal. set_solver.
    + intros x. rewrite d_in_add. destruct (decide (x = v)) as [->|].
      * rewrite lookup_insert, decide_True by done. f_equal.
      * rewrite lookup_insert_ne, (drep_in _ _ HR) by done. cbn. case_decide; [|done]. f_equal. set_solver.
    + intros x. rewrite d_out_add. destruct (decide (x = u)) as [->|].
      * rewrite lookup_insert, decide_True by done. f_equal.
        rewrite size_union, size_singleton; [lia|]. intros y ->%elem_of_singleton. by rewrite elem_of_d_out.
      * rewrite lookup_insert_ne, (drep_outd _ _ HR) by done. cbn. case_decide; [|done]. do 2 f_equal. set_solver.
    + intros x. rewrite d_in_add. destruct (decide (x = v)) as [->|].
      * rewrite lookup_insert, decide_True by done. f_equal.
        rewrite size_union, size_singleton; [lia|]. intros y ->%elem_of_singleton. by rewrite elem_of_d_in.
      * rewrite lookup_insert_ne, (drep_ind _ _ HR) by done. cbn. case_decide; [|done]. do 2 f_equal. set_solver.
    + rewrite (drep_m _ _ HR). cbn. rewrite size_union, size_singleton; [lia|]. set_solver.
Qed.

Lemma size_diff_singleton {A} `{Countable A} (X : gset A) x : x ∈ X → size X = size (X ∖ {[x]}) + 1.
Proof.
  intros Hx. rewrite size_difference by set_solver. rewrite size_singleton.
  assert (size X ≠ 0); [|lia]. intros Hs%size_empty_inv. set_solver.
Qed.

Lemma ed_remove_arc_rep g D u v :
  ed_rep g D →
  ∃ g', ed_remove_arc g u v = Ok (g', bool_decide ((u, v) ∈ da D)) ∧
    ed_rep g' (ADigraph (dv D) (da D ∖ {[(u, v)]})).
Proof.
  intros HR. unfold ed_remove_arc. rewrite (drep_has_arc _ _ _ _ HR). destruct D as [V A]; cbn in *.
  case_bool_decide as He.
  2: { exists g. split; [done|]. assert (A ∖ {[(u, v)]} = A) as -> by set_solver. done. }
  destruct (drep_wf _ _ HR _ He) as [Hu Hv]. cbn in Hu, Hv.
  rewrite (drep_out _ _ HR), (drep_in _ _ HR), (drep_outd _ _ HR), (drep_ind _ _ HR), (drep_m _ _ HR). cbn.
  rewrite !(decide_True _ _ Hu), !(decide_True _ _ Hv). cbn.
  assert (v ∈ d_out (ADigraph V A) u) as Ho by (by rewrite elem_of_d_out).
  assert (u ∈ d_in (ADigraph V A) v) as Hi by (by rewrite elem_of_d_in).
  apply size_diff_singleton in Ho, Hi. pose proof (size_diff_singleton A (u, v) He) as Hm.
  rewrite Ho, Hi, Hm. unfold sub_checked.
  rewrite !(proj2 (Nat.leb_le 1 _)) by lia. cbn [mbind res_bind].
  eexists; split; [done|]. split; cbn.
  + intros e He'. apply (drep_wf _ _ HR). set_solver.
  + intros x. rewrite d_out_remove. destruct (decide (x = u)) as [->|].
    * rewrite lookup_insert, decide_True by done. done.
    * rewrite lookup_insert_ne, (drep_out _ _ HR) by done. cbn. case_decide; [|done]. f_equal. set_solver.
  + intros x. rewrite d_in_remove. destruct (decide (x = v)) as [->|].
    * rewrite lookup_insert, decide_True by done. done.
    * rewrite lookup_insert_ne, (drep_in _ _ HR) by done. cbn. case_decide; [|done]. f_equal. set_solver.
  + intros x. rewrite d_out_remove. destruct (decide (x = u)) as [->|].
    * rewrite lookup_insert, decide_True by done. f_equal. lia.
    * rewrite lookup_insert_ne, (drep_outd _ _ HR) by done. cbn. case_decide; [|done]. do 2 f_equal. set_solver.
  + intros x. rewrite d_in_remove. destruct (decide (x = v)) as [->|].
    * rewrite lookup_insert, decide_True by done. f_equal. lia.
    * rewrite lookup_insert_ne, (drep_ind _ _ HR) by done. cbn. case_decide; [|done]. do 2 f_equal. set_solver.
  + lia.
Qed.

Section with_iter.
Context `{HI : HashIter}.

Lemma ed_remove_arcs_fold (f : N → N * N) l : ∀ g D,
  ed_rep g D →
  ∃ g', fold_res (λ g v, r ← ed_remove_arc g (f v).1 (f v).2; Ok r.1) l g = Ok g' ∧
    ed_rep g' (ADigraph (dv D) (da D ∖ list_to_set (f <$> l))).
Proof.
  induction l as [|v l IH]; intros g D HR; cbn.
  - exists g. split; [done|]. rewrite difference_empty_L. by destruct D.
  - destruct (ed_remove_arc_rep g D (f v).1 (f v).2 HR) as (g1 & -> & HR1). cbn.
    destruct (IH _ _ HR1) as (g2 & Hg2 & HR2). exists g2. split; [exact Hg2|]. cbn in HR2.
    replace (da D ∖ ({[f v]} ∪ list_to_set (f <$> l))) with
      (da D ∖ {[((f v).1, (f v).2)]} ∖ list_to_set (f <$> l)); [done|].
    rewrite <- surjective_pairing. set_solver.
Qed.

Lemma ed_remove_vertex_rep g D u :
  ed_rep g D →
  ∃ g', ed_remove_vertex g u = Ok (g', bool_decide (u ∈ dv D)) ∧
    ed_rep g' (ADigraph (dv D ∖ {[u]}) (filter (λ e, e.1 ≠ u ∧ e.2 ≠ u) (da D))).
Proof.
  intros HR. unfold ed_remove_vertex. rewrite (drep_contains _ _ _ HR).
  case_bool_decide as Hu; cbn [negb].
  2: { exists g. split; [done|].
    assert (dv D ∖ {[u]} = dv D) as -> by set_solver.
    assert (filter (λ e, e.1 ≠ u ∧ e.2 ≠ u) (da D) = da D) as ->; [|by destruct D].
    apply set_eq. intros e. rewrite elem_of_filter. split; [naive_solver|].
    intros He. split; [|done]. destruct (drep_wf _ _ HR _ He). split; intros <-; done. }
  rewrite (drep_out _ _ HR), (decide_True _ _ Hu). cbn [unwrap mbind res_bind].
  destruct (ed_remove_arcs_fold (λ v, (u, v)) (hash_iter 0 (d_out D u)) g D HR) as (g1 & Hg1 & HR1).
  cbn [fst snd] in Hg1. rewrite Hg1. cbn [mbind res_bind].
  rewrite (drep_in _ _ HR1). cbn [dv da]. rewrite (decide_True _ _ Hu). cbn [unwrap mbind res_bind].
  set (D1 := ADigraph (dv D) (da D ∖ list_to_set ((λ v, (u, v)) <$> hash_iter 0 (d_out D u)))) in *.
  destruct (ed_remove_arcs_fold (λ v, (v, u)) (hash_iter 1 (d_in D1 u)) g1 D1 HR1) as (g2 & Hg2 & HR2).
  cbn [fst snd] in Hg2. rewrite Hg2. cbn [mbind res_bind].
  eexists; split; [done|].
  set (D2 := ADigraph (dv D1) (da D1 ∖ list_to_set ((λ v, (v, u)) <$> hash_iter 1 (d_in D1 u)))) in *.
  assert (∀ a b, (a, b) ∈ da D1 ↔ (a, b) ∈ da D ∧ a ≠ u) as H1.
  { intros a b. cbn. rewrite elem_of_difference, elem_of_list_to_set, elem_of_list_fmap.
    setoid_rewrite elem_of_hash_iter. setoid_rewrite elem_of_d_out. naive_solver. }
  assert (∀ a b, (a, b) ∈ da D2 ↔ (a, b) ∈ da D ∧ a ≠ u ∧ b ≠ u) as H2.
  { intros a b. unfold D2. cbn [da]. rewrite elem_of_difference, elem_of_list_to_set, elem_of_list_fmap.
    setoid_rewrite elem_of_hash_iter. setoid_rewrite elem_of_d_in. rewrite H1. split.
    - intros [[? ?] Hn]. split_and!; [done..|]. intros ->. apply Hn. exists a. split; [done|]. by apply H1.
    - intros (? & ? & ?). split; [done|]. intros (v & ? & _). naive_solver. }
  assert (da D2 = filter (λ e, e.1 ≠ u ∧ e.2 ≠ u) (da D)) as HA.
  { apply set_eq. intros [a b]. rewrite H2, elem_of_filter. cbn. naive_solver. }
  rewrite <- HA. assert (dv D2 = dv D) as HV by done. clearbody D2. clear Hg1 Hg2 HR1 H1 D1 HA. rewrite <- HV.
  split; cbn.
  - intros [a b] He. destruct (drep_wf _ _ HR2 _ He). apply H2 in He. set_solver.
  - intros x. destruct (decide (x = u)) as [->|].
    + rewrite lookup_delete, decide_False by set_solver. done.
    + rewrite lookup_delete_ne, (drep_out _ _ HR2) by done. repeat case_decide; set_solver.
  - intros x. destruct (decide (x = u)) as [->|].
    + rewrite lookup_delete, decide_False by set_solver. done.
    + rewrite lookup_delete_ne, (drep_in _ _ HR2) by done. repeat case_decide; set_solver.
  - intros x. destruct (decide (x = u)) as [->|].
    + rewrite lookup_delete, decide_False by set_solver. done.
    + rewrite lookup_delete_ne, (drep_outd _ _ HR2) by done. repeat case_decide; set_solver.
  - intros x. destruct (decide (x = u)) as [->|].
    + rewrite lookup_delete, decide_False by set_solver. done.
    + rewrite lookup_delete_ne, (drep_ind _ _ HR2) by done. repeat case_decide; set_solver.
  - apply HR2.
Qed.

Lemma ed_step_rep g D o :
  ed_rep g D → ∃ g', ed_step g o = Ok (g', (d_step D o).2) ∧ ed_rep g' (d_step D o).1.
Proof.
  intros HR. destruct o as [u|u v|u v|u]; cbn.
  - destruct (ed_add_vertex_rep g D u HR) as [? Hb]. exists (ed_add_vertex g u).1.
    rewrite <- Hb, <- surjective_pairing. done.
  - by apply ed_add_arc_rep.
  - by apply ed_remove_arc_rep.
  - by apply ed_remove_vertex_rep.
Qed.

Lemma ed_run_rep os : ∀ g D,
  ed_rep g D → ∃ g', ed_run g os = Ok (g', (d_run D os).2) ∧ ed_rep g' (d_run D os).1.
Proof.
  induction os as [|o os IH]; intros g D HR; cbn; [eauto|].
  destruct (ed_step_rep g D o HR) as (g1 & -> & HR1). cbn.
  destruct (d_step D o) as [D1 b]; cbn in *.
  destruct (IH _ _ HR1) as (g2 & -> & HR2). cbn. destruct (d_run D1 os); cbn in *. eauto.
Qed.

Definition ed_wf (g : editdigraph) : Prop := ∃ D, ed_rep g D.

Lemma dvtx_rep g D u : ed_rep g D → dvtx g u ↔ u ∈ dv D.
Proof. intros HR. unfold dvtx. by rewrite (drep_contains _ _ _ HR), bool_decide_eq_true. Qed.
Lemma darc_rep g D u v : ed_rep g D → darc g u v ↔ (u, v) ∈ da D.
Proof. intros HR. unfold darc. by rewrite (drep_has_arc _ _ _ _ HR), bool_decide_eq_true. Qed.

Lemma ed_rep_fun g h D : ed_rep g D → ed_rep h D → g = h.
Proof.
  intros H1 H2. destruct g, h. f_equal; cbn.
  - apply map_eq. intros x. pose proof (drep_in _ _ H1 x). pose proof (drep_in _ _ H2 x). cbn in *. congruence.
  - apply map_eq. intros x. pose proof (drep_out _ _ H1 x). pose proof (drep_out _ _ H2 x). cbn in *. congruence.
  - apply map_eq. intros x. pose proof (drep_outd _ _ H1 x). pose proof (drep_outd _ _ H2 x). cbn in *. congruence.
  - apply map_eq. intros x. pose proof (drep_ind _ _ H1 x). pose proof (drep_ind _ _ H2 x). cbn in *. congruence.
  - pose proof (drep_m _ _ H1). pose proof (drep_m _ _ H2). cbn in *. congruence.
Qed.

Lemma ed_wf_ext g h : ed_wf g → ed_wf h →
  (∀ u, dvtx g u ↔ dvtx h u) → (∀ u v, darc g u v ↔ darc h u v) → g = h.
Proof.
  intros [D1 H1] [D2 H2] Hv Ha. assert (D1 = D2) as ->; [|by eapply ed_rep_fun].
  destruct D1 as [V1 A1], D2 as [V2 A2]. f_equal; apply set_eq.
  - intros x. specialize (Hv x). by rewrite (dvtx_rep _ _ _ H1), (dvtx_rep _ _ _ H2) in Hv.
  - intros [x y]. specialize (Ha x y). by rewrite (darc_rep _ _ _ _ H1), (darc_rep _ _ _ _ H2) in Ha.
Qed.

Lemma d_run_app D os1 os2 : (d_run D (os1 ++ os2)).1 = (d_run (d_run D os1).1 os2).1.
Proof.
  revert D; induction os1 as [|o os1 IH]; intros D; [done|]. cbn.
  destruct (d_step D o) as [D1 b]; cbn. specialize (IH D1).
  destruct (d_run D1 (os1 ++ os2)), (d_run D1 os1); cbn in *. done.
Qed.
Lemma d_run_add_vertices D vs :
  (d_run D (AddVertex <$> vs)).1 = ADigraph (list_to_set vs ∪ dv D) (da D).
Proof.
  revert D; induction vs as [|v vs IH]; intros D; cbn.
  - destruct D. f_equal. cbn. set_solver.
  - specialize (IH (ADigraph ({[v]} ∪ dv D) (da D))). destruct (d_run _ _); cbn in *. subst.
    f_equal. set_solver.
Qed.
Lemma d_run_add_arcs D (es : list (N * N)) :
  (∀ e, e ∈ es → e.1 ∈ dv D ∧ e.2 ∈ dv D) →
  (d_run D ((λ e, AddEdge e.1 e.2) <$> es)).1 = ADigraph (dv D) (list_to_set es ∪ da D).
Proof.
  revert D; induction es as [|e es IH]; intros D Hes; cbn.
  - destruct D. f_equal. cbn. set_solver.
  - destruct (Hes e) as [H1 H2]; [set_solver|].
    specialize (IH (ADigraph ({[e.1]} ∪ ({[e.2]} ∪ dv D)) ({[(e.1, e.2)]} ∪ da D))).
    destruct (d_run _ _); cbn in *. rewrite IH; [|intros; destruct (Hes e0); set_solver].
    rewrite <- surjective_pairing. f_equal; set_solver.
Qed.

Lemma ed_reachable_wf g : ed_reachable g ↔ ed_wf g.
Proof.
  split.
  - intros (os & bs & Hr). destruct (ed_run_rep os _ _ ed_new_rep) as (g' & Hr' & HR).
    rewrite Hr in Hr'. simplify_eq. by eexists.
  - intros [D HR].
    set (os := (AddVertex <$> elements (dv D)) ++ ((λ e, AddEdge e.1 e.2) <$> elements (da D))).
    destruct (ed_run_rep os _ _ ed_new_rep) as (g' & Hr' & HR').
    assert ((d_run d_empty os).1 = D) as HD.
    { unfold os. rewrite d_run_app, d_run_add_vertices, d_run_add_arcs.
      - destruct D as [V A]; cbn. f_equal; [rewrite list_to_set_elements_L; set_solver|].
        rewrite list_to_set_elements_L; set_solver.
      - intros e He%elem_of_elements. cbn. rewrite list_to_set_elements_L.
        destruct (drep_wf _ _ HR _ He). set_solver. }
    rewrite HD in HR'. rewrite (ed_rep_fun _ _ _ HR HR'). exists os. eauto.
Qed.

Lemma ed_new_wf : ed_wf ed_new.
Proof. eexists. apply ed_new_rep. Qed.
Lemma ed_new_v u : ¬ dvtx ed_new u.
Proof. rewrite (dvtx_rep _ _ _ ed_new_rep). set_solver. Qed.
Lemma ed_new_a u v : ¬ darc ed_new u v.
Proof. rewrite (darc_rep _ _ _ _ ed_new_rep). set_solver. Qed.

Lemma ed_add_vertex_spec g u : ed_wf g →
  ed_wf (ed_add_vertex g u).1 ∧ (ed_add_vertex g u).2 = negb (ed_contains g u) ∧
  (∀ x, dvtx (ed_add_vertex g u).1 x ↔ dvtx g x ∨ x = u) ∧
  (∀ x y, darc (ed_add_vertex g u).1 x y ↔ darc g x y).
Proof.
  intros [D HR]. destruct (ed_add_vertex_rep g D u HR) as [HR' Hb]. split_and!.
  - by eexists.
  - rewrite Hb, (drep_contains _ _ _ HR), bool_decide_not. done.
  - intros x. rewrite (dvtx_rep _ _ _ HR), (dvtx_rep _ _ _ HR'). cbn. set_solver.
  - intros x y. rewrite (darc_rep _ _ _ _ HR), (darc_rep _ _ _ _ HR'). done.
Qed.

Lemma ed_add_arc_spec g u v : ed_wf g →
  ∃ g', ed_add_arc g u v = Ok (g', negb (ed_has_arc g u v)) ∧ ed_wf g' ∧
  (∀ x, dvtx g' x ↔ dvtx g x ∨ x = u ∨ x = v) ∧
  (∀ x y, darc g' x y ↔ darc g x y ∨ (x = u ∧ y = v)) ∧
  ed_num_edges g' = ed_num_edges g + (if ed_has_arc g u v then 0 else 1).
Proof.
  intros [D HR]. destruct (ed_add_arc_rep g D u v HR) as (g' & -> & HR'). exists g'. split_and!.
  - rewrite (drep_has_arc _ _ _ _ HR), bool_decide_not. done.
  - by eexists.
  - intros x. rewrite (dvtx_rep _ _ _ HR), (dvtx_rep _ _ _ HR'). cbn. set_solver.
  - intros x y. rewrite (darc_rep _ _ _ _ HR), (darc_rep _ _ _ _ HR'). cbn. set_solver.
  - unfold ed_num_edges. rewrite (drep_m _ _ HR), (drep_m _ _ HR'), (drep_has_arc _ _ _ _ HR). cbn.
    case_bool_decide.
    + assert ({[(u, v)]} ∪ da D = da D) as -> by set_solver. lia.
    + rewrite size_union, size_singleton by set_solver. lia.
Qed.

Lemma ed_remove_arc_spec g u v : ed_wf g →
  ∃ g', ed_remove_arc g u v = Ok (g', ed_has_arc g u v) ∧ ed_wf g' ∧
  (∀ x, dvtx g' x ↔ dvtx g x) ∧ (∀ x y, darc g' x y ↔ darc g x y ∧ ¬ (x = u ∧ y = v)).
Proof.
  intros [D HR]. destruct (ed_remove_arc_rep g D u v HR) as (g' & -> & HR'). exists g'. split_and!.
  - rewrite (drep_has_arc _ _ _ _ HR). done.
  - by eexists.
  - intros x. rewrite (dvtx_rep _ _ _ HR), (dvtx_rep _ _ _ HR'). done.
  - intros x y. rewrite (darc_rep _ _ _ _ HR), (darc_rep _ _ _ _ HR'). cbn. set_solver.
Qed.

Lemma ed_remove_vertex_spec g u : ed_wf g →
  ∃ g', ed_remove_vertex g u = Ok (g', ed_contains g u) ∧ ed_wf g' ∧
  (∀ x, dvtx g' x ↔ dvtx g x ∧ x ≠ u) ∧ (∀ x y, darc g' x y ↔ darc g x y ∧ x ≠ u ∧ y ≠ u).
Proof.
  intros [D HR]. destruct (ed_remove_vertex_rep g D u HR) as (g' & -> & HR'). exists g'. split_and!.
  - rewrite (drep_contains _ _ _ HR). done.
  - by eexists.
  - intros x. rewrite (dvtx_rep _ _ _ HR), (dvtx_rep _ _ _ HR'). cbn. set_solver.
  - intros x y. rewrite (darc_rep _ _ _ _ HR), (darc_rep _ _ _ _ HR'). cbn. rewrite elem_of_filter. cbn. naive_solver.
Qed.

Lemma darc_vtx g u v : ed_wf g → darc g u v → dvtx g u ∧ dvtx g v.
Proof.
  intros [D HR] Ha. rewrite !(dvtx_rep _ _ _ HR). rewrite (darc_rep _ _ _ _ HR) in Ha.
  apply (drep_wf _ _ HR _ Ha).
Qed.

Lemma ed_vertices g u : ed_wf g → u ∈ vertices (ed_graph g) ↔ dvtx g u.
Proof.
  intros [D HR]. cbn. rewrite elem_of_hash_iter, elem_of_dom, (drep_out _ _ HR), (dvtx_rep _ _ _ HR).
  case_decide; split; try done; [by eauto..|]. by intros [? ?].
Qed.
Lemma ed_vertices_nodup g : NoDup (vertices (ed_graph g)).
Proof. apply NoDup_hash_iter. Qed.

Lemma ed_num_vertices_spec g : ed_num_vertices g = length (vertices (ed_graph g)).
Proof. cbn. by rewrite hash_iter_length, size_dom. Qed.

Lemma ed_out_neighbours_spec g u : ed_wf g → dvtx g u →
  ∃ l, ed_out_neighbours g u = Ok l ∧ NoDup l ∧ (∀ v, v ∈ l ↔ darc g u v) ∧
       ed_out_degree g u = Ok (length l) ∧ ed_outd g !! u = Some (length l).
Proof.
  intros [D HR] Hu. rewrite (dvtx_rep _ _ _ HR) in Hu. unfold ed_out_neighbours, ed_out_degree.
  rewrite (drep_out _ _ HR), (drep_outd _ _ HR), !(decide_True _ _ Hu).
  eexists; split; [done|]. split_and!; [apply NoDup_hash_iter| | |].
  - intros v. by rewrite elem_of_hash_iter, elem_of_d_out, (darc_rep _ _ _ _ HR).
  - cbn. by rewrite hash_iter_length.
  - by rewrite hash_iter_length.
Qed.
Lemma ed_in_neighbours_spec g u : ed_wf g → dvtx g u →
  ∃ l, ed_in_neighbours g u = Ok l ∧ NoDup l ∧ (∀ v, v ∈ l ↔ darc g v u) ∧
       ed_in_degree g u = Ok (length l) ∧ ed_ind g !! u = Some (length l).
Proof.
  intros [D HR] Hu. rewrite (dvtx_rep _ _ _ HR) in Hu. unfold ed_in_neighbours, ed_in_degree.
  rewrite (drep_in _ _ HR), (drep_ind _ _ HR), !(decide_True _ _ Hu).
  eexists; split; [done|]. split_and!; [apply NoDup_hash_iter| | |].
  - intros v. by rewrite elem_of_hash_iter, elem_of_d_in, (darc_rep _ _ _ _ HR).
  - cbn. by rewrite hash_iter_length.
  - by rewrite hash_iter_length.
Qed.

Lemma ed_neighbours_spec g u : ed_wf g → dvtx g u →
  ∃ li lo, ed_neighbours g u = Ok (li ++ lo) ∧ NoDup li ∧ NoDup lo ∧
    (∀ v, v ∈ li ↔ darc g v u) ∧ (∀ v, v ∈ lo ↔ darc g u v).
Proof.
  intros Hg Hu. destruct (ed_out_neighbours_spec g u Hg Hu) as (lo & Ho & ? & ? & _).
  destruct (ed_in_neighbours_spec g u Hg Hu) as (li & Hi & ? & ? & _).
  exists li, lo. split; [|done]. unfold ed_neighbours. rewrite Hu. cbn [negb].
  unfold ed_out_neighbours in Ho. unfold ed_in_neighbours in Hi.
  destruct (ed_out g !! u); [|done]. destruct (ed_in g !! u); [|done]. cbn. congruence.
Qed.

(** ** arcs() *)
Lemma ai_loop_drains D vs : ∀ v it ls,
  mapM (M:=res) (λ v, Nv ← out_neighbours D v; Ok (pair v <$> (Nv : list N))) vs = Ok ls →
  drains (ai_next D) (ArcIt vs (Some v) (Some it)) ((pair v <$> it) ++ concat ls).
Proof.
  induction vs as [|v' vs IH]; intros v it ls Hls.
  - cbn in Hls. injection Hls as <-. cbn [concat]. rewrite app_nil_r. induction it as [|u it IHit]; cbn.
    + by econstructor.
    + econstructor; [done|]. apply IHit.
  - cbn [mapM] in Hls. apply bind_ok in Hls as (l1 & H1 & H2). apply bind_ok in H1 as (Nv & Hn & [= <-]).
    apply bind_ok in H2 as (ls' & Hls' & [= <-]). cbn [concat].
    induction it as [|u it IHit]; cbn [fmap list_fmap app].
    + specialize (IH v' Nv ls' Hls'). 
      inversion IH as [s s' Hx|s s' x l Hx Hd]; subst.
      * econstructor. cbn. rewrite Hn. exact Hx.
      * econstructor; [|exact Hd]. cbn. rewrite Hn. exact Hx.
    + econstructor; [done|]. apply IHit.
Qed.

Lemma arcs_drains D l :
  arcs D = Ok l → ∃ s, ai_new D = Ok s ∧ drains (ai_next D) s l.
Proof.
  unfold arcs, ai_new, ai_advance. intros (ls & Hls & [= <-])%bind_ok. cbn.
  destruct (vertices (dg D)) as [|v vs]; cbn in *.
  - injection Hls as <-. eexists; split; [done|]. by econstructor.
  - apply bind_ok in Hls as (l1 & H1 & H2). apply bind_ok in H1 as (Nv & Hn & [= <-]).
    apply bind_ok in H2 as (ls' & Hls' & [= <-]). rewrite Hn. cbn.
    eexists; split; [done|]. by apply ai_loop_drains.
Qed.

Lemma arcs_spec g : ed_wf g →
  ∃ l, arcs (ed_digraph g) = Ok l ∧ NoDup l ∧ (∀ u v, (u, v) ∈ l ↔ darc g u v) ∧
       length l = ed_num_edges g.
Proof.
  intros Hg. unfold arcs. cbn [out_neighbours ed_digraph dg].
  assert (∀ vs, NoDup vs → (∀ v, v ∈ vs → dvtx g v) →
    ∃ ls, mapM (M:=res) (λ v, Nv ← ed_out_neighbours g v; Ok (pair v <$> (Nv : list N))) vs = Ok ls ∧
      NoDup (concat ls) ∧ ∀ u v, (u, v) ∈ concat ls ↔ u ∈ vs ∧ darc g u v) as HH.
  { induction vs as [|v vs IH]; intros Hnd Hvs.
    - exists []. cbn. split_and!; [done|constructor|set_solver].
    - apply NoDup_cons in Hnd as [Hv Hnd]. destruct IH as (ls & Hls & Hnl & Hin); [done|set_solver|].
      destruct (ed_out_neighbours_spec g v Hg) as (l & Hl & Hln & Hlin & _); [set_solver|].
      exists ((pair v <$> l) :: ls). cbn [mapM]. rewrite Hl. cbn [mbind res_bind].
      rewrite Hls. cbn [mbind res_bind]. split_and!; [done| |].
      + cbn. apply NoDup_app. split_and!; [by apply NoDup_fmap_2; [intros ???; congruence|]| |done].
        intros [a b] (c & [= -> ->] & _)%elem_of_list_fmap [? _]%Hin. done.
      + intros a b. cbn. rewrite elem_of_app, Hin, elem_of_list_fmap, elem_of_cons. split.
        * intros [(c & ? & ?)|?]; [|naive_solver]. simplify_eq. split; [by left|by apply Hlin].
        * intros [[->|?] ?]; [|by right]. left. exists b. split; [done|by apply Hlin]. }
  destruct (HH (vertices (ed_graph g))) as (ls & Hls & Hnd & Hin).
  { apply ed_vertices_nodup. }
  { intros v. by apply ed_vertices. }
  rewrite Hls. cbn [mbind res_bind]. eexists; split; [done|].
  assert (∀ u v, (u, v) ∈ concat ls ↔ darc g u v) as Hin'.
  { intros u v. rewrite Hin, (ed_vertices _ _ Hg). split; [naive_solver|].
    intros Ha. split; [|done]. by apply (darc_vtx g u v). }
  split_and!; [done|done|].
  destruct Hg as [D HR]. unfold ed_num_edges. rewrite (drep_m _ _ HR).
  rewrite <- (size_list_to_set (C:=gset (N * N)) (concat ls)) by done.
  f_equal. apply set_eq. intros [u v]. by rewrite elem_of_list_to_set, Hin', (darc_rep _ _ _ _ HR).
Qed.

End with_iter.
