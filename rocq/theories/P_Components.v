(** Proofs about [components]. *)
From Verif Require Import Base Spec M_Graph M_Iterators M_EditGraph M_Algorithms S_Graph S_Multi P_Graph P_Iterators.

Section with_iter.
Context `{HI : HashIter}.

Record ds_inv (G : graph) (es : list (N * N)) (ds : dsets) : Prop := {
  di_ne : ∀ X, X ∈ ds → X ≠ ∅;
  di_disj : ∀ X Y v, X ∈ ds → Y ∈ ds → v ∈ X → v ∈ Y → X = Y;
  di_cover : ∀ v, vtx G v ↔ ∃ X, X ∈ ds ∧ v ∈ X;
  di_conn : ∀ X u v, X ∈ ds → u ∈ X → v ∈ X → rtc (adj G) u v;
  di_edges : ∀ u v, (u, v) ∈ es → ∃ X, X ∈ ds ∧ u ∈ X ∧ v ∈ X;
}.

Lemma ds_find_some ds v X : ds_find ds v = Some X → X ∈ ds ∧ v ∈ X.
Proof.
  unfold ds_find. intros Hh. assert (X ∈ filter (λ X, v ∈ X) ds) as Hf.
  { destruct (filter _ ds); [done|]. cbn in Hh. simplify_eq. set_solver. }
  apply elem_of_list_filter in Hf. naive_solver.
Qed.
Lemma ds_find_ok ds v : (∃ X, X ∈ ds ∧ v ∈ X) → ∃ X, ds_find ds v = Some X.
Proof.
  intros (X & HX & Hv). unfold ds_find.
  assert (X ∈ filter (λ X, v ∈ X) ds) as Hf by (apply elem_of_list_filter; done).
  destruct (filter _ ds) as [|Y l]; [set_solver|]. by exists Y.
Qed.

Lemma ds_init_elem vs X : X ∈ foldl ds_make_set [] vs ↔ ∃ v, v ∈ vs ∧ X = {[v]}.
Proof.
  induction vs as [|v vs IH] using rev_ind; cbn; [set_solver|].
  rewrite foldl_app. cbn. unfold ds_make_set at 1. rewrite elem_of_cons, IH. set_solver.
Qed.

Lemma components_weak G : weak_wf G →
  ∃ cs, components G = Ok cs ∧ NoDup cs ∧
    (∀ X, X ∈ cs → X ≠ ∅) ∧
    (∀ X Y, X ∈ cs → Y ∈ cs → X ≠ Y → X ## Y) ∧
    (∀ v, vtx G v ↔ ∃ X, X ∈ cs ∧ v ∈ X) ∧
    (∀ u v, vtx G u → (∃ X, X ∈ cs ∧ u ∈ X ∧ v ∈ X) ↔ rtc (adj G) u v).
Proof.
  intros Hwf. unfold components.
  destruct (edges_weak G Hwf) as (es & -> & Hes). cbn [mbind res_bind].
  destruct (fold_res_inv (λ ds e,
         X ← unwrap (ds_find ds e.1);
         Y ← unwrap (ds_find ds e.2);
         if bool_decide (X = Y) then Ok ds else Ok (ds_union ds X Y)) (ds_inv G) es
         (foldl ds_make_set [] (vertices G))) as (ds & -> & Hds).
  - split.
    + intros X (v & _ & ->)%ds_init_elem. set_solver.
    + intros X Y v (x & _ & ->)%ds_init_elem (y & _ & ->)%ds_init_elem. set_solver.
    + intros v. rewrite <- (ww_vertices _ Hwf). setoid_rewrite ds_init_elem. split.
      * intros Hv. exists {[v]}. split; [by exists v|set_solver].
      * intros (X & (x & Hx & ->) & ->%elem_of_singleton). done.
    + intros X u v (x & _ & ->)%ds_init_elem ->%elem_of_singleton ->%elem_of_singleton. done.
    + set_solver.
  - intros es1 [u v] es2 ds -> HI1. cbn [fst snd].
    assert (adj G u v) as Huv by (apply Hes; set_solver).
    pose proof (ww_adj_sym _ Hwf _ _ Huv) as Hvu.
    destruct (ds_find_ok ds u) as (X & HX).
    { apply (di_cover _ _ _ HI1). by apply (ww_adj_vtx _ Hwf u v). }
    destruct (ds_find_ok ds v) as (Y & HY).
    { apply (di_cover _ _ _ HI1). by apply (ww_adj_vtx _ Hwf v u). }
    rewrite HX, HY. cbn [unwrap mbind res_bind].
    apply ds_find_some in HX as [HX HuX]. apply ds_find_some in HY as [HY HvY].
    case_bool_decide as HXY; (eexists; split; [done|]).
    + subst Y. split; try apply HI1. intros a b [Hab|Hab%elem_of_list_singleton]%elem_of_app.
      * by apply (di_edges _ _ _ HI1).
      * simplify_eq. eauto.
    + assert (∀ Z, Z ∈ ds_union ds X Y ↔ Z = X ∪ Y ∨ Z ∈ ds ∧ Z ≠ X ∧ Z ≠ Y) as HZ.
      { intros Z. unfold ds_union. rewrite elem_of_cons, elem_of_list_filter. naive_solver. }
      assert (∀ Z w, Z ∈ ds → Z ≠ X → Z ≠ Y → w ∈ Z → w ∈ X ∪ Y → False) as Hno.
      { intros Z w HZ1 ? ? HwZ [Hw|Hw]%elem_of_union.
        - by pose proof (di_disj _ _ _ HI1 Z X w HZ1 HX HwZ Hw).
        - by pose proof (di_disj _ _ _ HI1 Z Y w HZ1 HY HwZ Hw). }
      assert (∀ a, a ∈ X → rtc (adj G) a v) as HXv.
      { intros a Ha. eapply rtc_r; [by eapply (di_conn _ _ _ HI1 X a u)|done]. }
      assert (∀ a, a ∈ X → rtc (adj G) v a) as HvX.
      { intros a Ha. eapply rtc_l; [done|]. by eapply (di_conn _ _ _ HI1 X u a). }
      split.
      * intros Z [->|(? & _)]%HZ; [set_solver|by apply (di_ne _ _ _ HI1)].
      * intros Z1 Z2 w [->|(H1 & ? & ?)]%HZ [->|(H2 & ? & ?)]%HZ Hw1 Hw2; [done| | |].
        -- exfalso. eauto.
        -- exfalso. eauto.
        -- by eapply (di_disj _ _ _ HI1).
      * intros w. rewrite (di_cover _ _ _ HI1 w). setoid_rewrite HZ. split.
        -- intros (Z & ? & ?). destruct (decide (Z = X)) as [->|]; [exists (X ∪ Y); set_solver|].
           destruct (decide (Z = Y)) as [->|]; [exists (X ∪ Y); set_solver|]. eauto 6.
        -- intros (Z & [->|(? & _)] & Hw); [|by eauto]. apply elem_of_union in Hw as [?|?]; eauto.
      * intros Z a b [->|(? & _)]%HZ; [|by apply (di_conn _ _ _ HI1)].
        intros [Ha|Ha]%elem_of_union [Hb|Hb]%elem_of_union.
        -- by apply (di_conn _ _ _ HI1 X).
        -- transitivity v; [auto|]. by apply (di_conn _ _ _ HI1 Y).
        -- transitivity v; [|auto]. by apply (di_conn _ _ _ HI1 Y).
        -- by apply (di_conn _ _ _ HI1 Y).
      * assert (∀ Z, Z ∈ ds → ∃ Z', Z' ∈ ds_union ds X Y ∧ Z ⊆ Z') as Hup.
        { intros Z HZ1. destruct (decide (Z = X)) as [->|]; [exists (X ∪ Y); rewrite HZ; set_solver|].
          destruct (decide (Z = Y)) as [->|]; [exists (X ∪ Y); rewrite HZ; set_solver|].
          exists Z. rewrite HZ. split; [by right|done]. }
        intros a b [Hab|Hab%elem_of_list_singleton]%elem_of_app.
        -- destruct (di_edges _ _ _ HI1 a b Hab) as (Z & HZ1 & ? & ?).
           destruct (Hup Z HZ1) as (Z' & ? & ?). exists Z'. set_solver.
        -- simplify_eq. exists (X ∪ Y). rewrite HZ. set_solver.
  - cbn [mbind res_bind]. eexists; split; [done|].
    assert (∀ X, X ∈ hash_iter 0 (list_to_set ds : gset (gset N)) ↔ X ∈ ds) as Hin.
    { intros X. by rewrite elem_of_hash_iter, elem_of_list_to_set. }
    split_and!; [apply NoDup_hash_iter| | | |]; setoid_rewrite Hin.
    + apply Hds.
    + intros X Y HX HY Hne v HvX HvY. apply Hne. by eapply (di_disj _ _ _ Hds).
    + apply Hds.
    + intros u v Hu. split.
      * intros (X & HX & ? & ?). by eapply (di_conn _ _ _ Hds).
      * apply (di_cover _ _ _ Hds) in Hu as (X & HX & HuX). intros Hr. exists X. split_and!; [done..|].
        induction Hr as [|x y z Hxy Hr IH]; [done|]. apply IH.
        assert (∃ Z, Z ∈ ds ∧ x ∈ Z ∧ y ∈ Z) as (Z & HZ & HxZ & HyZ).
        { destruct (N.le_gt_cases x y).
          - apply (di_edges _ _ _ Hds), Hes. done.
          - destruct (di_edges _ _ _ Hds y x) as (Z & ? & ? & ?); [|by exists Z].
            apply Hes. split; [lia|]. by apply (ww_adj_sym _ Hwf). }
        by rewrite (di_disj _ _ _ Hds X Z x HX HZ HuX HxZ).
Qed.

Lemma components_spec G : graph_wf G →
  ∃ cs, components G = Ok cs ∧ NoDup cs ∧
    (∀ X, X ∈ cs → X ≠ ∅) ∧
    (∀ X Y, X ∈ cs → Y ∈ cs → X ≠ Y → X ## Y) ∧
    (∀ v, vtx G v ↔ ∃ X, X ∈ cs ∧ v ∈ X) ∧
    (∀ u v, vtx G u → (∃ X, X ∈ cs ∧ u ∈ X ∧ v ∈ X) ↔ rtc (adj G) u v).
Proof. intros Hwf. by apply components_weak, graph_wf_weak. Qed.

End with_iter.
