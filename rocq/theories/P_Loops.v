(** Proofs about [degeneracy] on graphs that may have loops. *)
From Verif Require Import Base Spec M_Graph M_Iterators M_EditGraph M_Algorithms S_Graph P_Graph P_Iterators P_Degeneracy.

(** Number of occurrences. *)
Definition occ (v : N) (l : list N) : nat := length (filter (λ x, x = v) l).
Lemma occ_snoc v l x : occ v (l ++ [x]) = occ v l + (if decide (x = v) then 1 else 0).
Proof. unfold occ. rewrite filter_app, app_length. f_equal. rewrite filter_cons. case_decide; done. Qed.
Lemma occ_not_in v l : v ∉ l → occ v l = 0.
Proof.
  induction l as [|x l IH]; [done|]. intros Hv. unfold occ in *. rewrite filter_cons, decide_False by set_solver.
  apply IH. set_solver.
Qed.

(** Invariant rule for loops that may panic but not diverge. *)
Lemma fold_res_inv_panic {A S} (f : S → A → res S) (I : list A → S → Prop) l s :
  I [] s →
  (∀ l1 x l2 s, l = l1 ++ x :: l2 → I l1 s → f s x = Panic ∨ ∃ s', f s x = Ok s' ∧ I (l1 ++ [x]) s') →
  fold_res f l s = Panic ∨ ∃ s', fold_res f l s = Ok s' ∧ I l s'.
Proof.
  intros H0 Hstep.
  enough (∀ l2 l1 s, l = l1 ++ l2 → I l1 s → fold_res f l2 s = Panic ∨ ∃ s', fold_res f l2 s = Ok s' ∧ I l s') as HH.
  { by apply (HH l []). }
  induction l2 as [|x l2 IH]; intros l1 s' Hl HI.
  - rewrite app_nil_r in Hl. subst. right. by exists s'.
  - rewrite fold_res_cons. destruct (Hstep l1 x l2 s' Hl HI) as [->|(s'' & -> & HI')]; [by left|].
    cbn [mbind res_bind]. apply (IH (l1 ++ [x])); [|done]. by rewrite <- app_assoc.
Qed.

Section with_iter.
Context `{HI : HashIter}.
Context (G : graph) (Hwf : graph_wf G).

(** State of the neighbour loop of vertex [v] after processing [l1]. *)
Record lupd_inv (ord : list N) (v : N) (l1 : list N) (s : gmap N nat * gmap nat (gset N)) : Prop := {
  lu_deg : ∀ w, vtx G w → is_Some (s.1 !! w);
  lu_in : ∀ w n, vtx G w → w ∉ ord → w ≠ v → s.1 !! w = Some n → inb s.2 (calc_index n) w;
  lu_b : ∀ d w, inb s.2 d w → vtx G w ∧ (w ∈ ord → adj G w w ∧ occ w ord = 1) ∧
     (w = v → v ∈ l1 ∧ v ∉ ord) ∧ ∀ d', inb s.2 d' w → d' = d;
}.

Lemma lupd_spec ord v core deg b :
  vtx G v → (∀ u, is_Some (core !! u) ↔ u ∈ ord) →
  lupd_inv ord v [] (deg, b) →
  fold_res (dgn_update core) (nbrs G v) (deg, b) = Panic ∨
  ∃ s, fold_res (dgn_update core) (nbrs G v) (deg, b) = Ok s ∧ lupd_inv ord v (nbrs G v) s.
Proof.
  intros Hv Hcore H0. destruct (nbrs_spec G v Hwf Hv) as (_ & Hnd & Hin & _).
  apply (fold_res_inv_panic (dgn_update core) (lupd_inv ord v)); [done|].
  intros l1 u l2 s Hl HIs. unfold dgn_update.
  assert (adj G v u) as Hvu by (apply Hin; rewrite Hl; set_solver).
  assert (vtx G u) as Hu by (apply (wf_adj_vtx _ Hwf u v), (wf_adj_sym _ Hwf), Hvu).
  assert (u ∉ l1) as Hul1. { rewrite Hl in Hnd. apply NoDup_app in Hnd as (_ & Hd & _). intros ?. apply (Hd u); set_solver. }
  destruct (core !! u) as [c|] eqn:Ec.
  - right. exists s. split; [done|]. split.
    + apply HIs.
    + apply HIs.
    + intros d w Hw. destruct (lu_b _ _ _ _ HIs d w Hw) as (? & ? & Hwv & ?). split_and!; [done|done| |done].
      intros E. destruct (Hwv E). set_solver.
  - assert (u ∉ ord) as Huo by (rewrite <- Hcore, Ec; by intros [? ?]).
    destruct (lu_deg _ _ _ _ HIs u Hu) as [n Hn]. rewrite Hn. cbn [unwrap mbind res_bind].
    unfold sub_checked. destruct (1 <=? n) eqn:E1; [|by left]. right. cbn [mbind res_bind].
    eexists. split; [done|].
    assert (∀ d w, inb
        (if calc_index n =? calc_index (n - 1) then s.2
         else map_upd ∅ (λ X, {[u]} ∪ X) (calc_index (n - 1))
                (alter (λ X, X ∖ {[u]}) (calc_index n) s.2)) d w →
        (w ≠ u ∧ inb s.2 d w) ∨ (w = u ∧ d = calc_index (n - 1))) as Hb1.
    { intros d w. destruct (Nat.eqb_spec (calc_index n) (calc_index (n - 1))) as [He|He].
      - intros Hw. destruct (decide (w = u)) as [->|]; [right|by left]. split; [done|].
        destruct (lu_b _ _ _ _ HIs d u Hw) as (_ & _ & Huv & Huniq).
        destruct (decide (u = v)) as [E|Huv']; [destruct (Huv E); subst; done|].
        rewrite <- He. symmetry. apply Huniq. by apply (lu_in _ _ _ _ HIs).
      - rewrite inb_add, inb_remove. intros [[Hw Hne]|[-> ->]]; [|by right].
        destruct (decide (w = u)) as [->|]; [|by left]. exfalso. apply Hne. split; [|done].
        destruct (lu_b _ _ _ _ HIs d u Hw) as (_ & _ & Huv & Huniq).
        destruct (decide (u = v)) as [E|Huv']; [destruct (Huv E); subst; done|].
        symmetry. apply Huniq. by apply (lu_in _ _ _ _ HIs). }
    assert (∀ d w, (w ≠ u ∧ inb s.2 d w) ∨ (w = u ∧ u ≠ v ∧ d = calc_index (n - 1)) → inb
        (if calc_index n =? calc_index (n - 1) then s.2
         else map_upd ∅ (λ X, {[u]} ∪ X) (calc_index (n - 1))
                (alter (λ X, X ∖ {[u]}) (calc_index n) s.2)) d w) as Hb2.
    { intros d w. destruct (Nat.eqb_spec (calc_index n) (calc_index (n - 1))) as [He|He].
      - intros [[? ?]|(-> & Huv & ->)]; [done|]. rewrite <- He. by apply (lu_in _ _ _ _ HIs).
      - rewrite inb_add, inb_remove. naive_solver. }
    split; cbn [fst snd].
    + intros w Hw. destruct (decide (w = u)) as [->|]; [rewrite lookup_insert; eauto|].
      rewrite lookup_insert_ne by done. by apply HIs.
    + intros w n' Hw Hwo Hwv Hn'. apply Hb2. destruct (decide (w = u)) as [->|].
      * rewrite lookup_insert in Hn'. injection Hn' as <-. by right.
      * rewrite lookup_insert_ne in Hn' by done. left. split; [done|]. by apply (lu_in _ _ _ _ HIs).
    + intros d w Hw. destruct (Hb1 _ _ Hw) as [[Hwu Hw']|[-> ->]].
      * destruct (lu_b _ _ _ _ HIs d w Hw') as (? & ? & Hwv & Huniq). split_and!; [done|done| |].
        -- intros E. destruct (Hwv E). set_solver.
        -- intros d' [[_ Hd']|[? _]]%Hb1; [by apply Huniq|done].
      * split_and!; [done|done| |].
        -- intros E. subst. split; [set_solver|done].
        -- intros d' [[? _]|[_ ->]]%Hb1; done.
Qed.

(** State of the main loop. *)
Record lp_inv (s : dgn_st) : Prop := {
  lp_vtx : ∀ v, v ∈ dgn_order s → vtx G v;
  lp_core : ∀ v, is_Some (dgn_core s !! v) ↔ v ∈ dgn_order s;
  lp_deg : ∀ w, vtx G w → is_Some (dgn_deg s !! w);
  lp_in : ∀ w n, vtx G w → w ∉ dgn_order s → dgn_deg s !! w = Some n → inb (dgn_buckets s) (calc_index n) w;
  lp_b : ∀ d w, inb (dgn_buckets s) d w → vtx G w ∧ (w ∈ dgn_order s → adj G w w ∧ occ w (dgn_order s) = 1) ∧
     ∀ d', inb (dgn_buckets s) d' w → d' = d;
  lp_occ : ∀ v, occ v (dgn_order s) ≤ 2 ∧ (¬ adj G v v → occ v (dgn_order s) ≤ 1);
}.

Lemma lp_init : lp_inv (DgnSt [] (dgn_init G).1 ∅ (dgn_init G).2 0).
Proof.
  assert (∀ vs, (∀ w, w ∈ vs → (foldl (λ s v, (<[v := degree G v]> s.1, map_upd ∅ (λ X, {[v]} ∪ X) (calc_index (degree G v)) s.2))
      (∅ : gmap N nat, ∅ : gmap nat (gset N)) vs).1 !! w = Some (degree G w)) ∧
     ∀ d w, inb (foldl (λ s v, (<[v := degree G v]> s.1, map_upd ∅ (λ X, {[v]} ∪ X) (calc_index (degree G v)) s.2))
      (∅ : gmap N nat, ∅ : gmap nat (gset N)) vs).2 d w ↔ w ∈ vs ∧ d = calc_index (degree G w)) as HH.
  { induction vs as [|v vs [IH1 IH2]] using rev_ind.
    - split; [set_solver|]. intros d w. split; [intros (X & HX & _); cbn in HX; rewrite lookup_empty in HX; done|set_solver].
    - rewrite !foldl_app. cbn. split.
      + intros w Hw. destruct (decide (w = v)) as [->|]; [by rewrite lookup_insert|].
        rewrite lookup_insert_ne by done. apply IH1. set_solver.
      + intros d w. rewrite inb_add, IH2, elem_of_app, elem_of_list_singleton. naive_solver. }
  destruct (HH (vertices G)) as [H1 H2]. split; cbn [dgn_order dgn_deg dgn_core dgn_buckets].
  - set_solver.
  - intros v. rewrite lookup_empty. split; [by intros [? ?]|set_solver].
  - intros w Hw. eexists. apply H1. by apply (wf_vertices _ Hwf).
  - intros w n Hw _ Hn. apply H2. rewrite (wf_vertices _ Hwf). split; [done|].
    unfold dgn_init in Hn. rewrite H1 in Hn by (by apply (wf_vertices _ Hwf)). by injection Hn as <-.
  - intros d w [Hw ->]%H2. split_and!; [by apply (wf_vertices _ Hwf)|set_solver|]. by intros d' [_ ->]%H2.
  - intros v. unfold occ. cbn. lia.
Qed.

Lemma lp_step s t : lp_inv s → length (dgn_order s) < num_vertices G →
  dgn_step G s t = Panic ∨ ∃ s' v, dgn_step G s t = Ok s' ∧ dgn_order s' = dgn_order s ++ [v] ∧ lp_inv s'.
Proof.
  intros HIv Hlen. unfold dgn_step.
  assert (∃ w, vtx G w ∧ w ∉ dgn_order s) as (w0 & Hw0 & Hw0o).
  { destruct (decide (Forall (λ w, w ∈ dgn_order s) (vertices G))) as [Hall|Hn].
    - exfalso. rewrite Forall_forall in Hall.
      assert (length (vertices G) ≤ length (dgn_order s)); [|rewrite (wf_num_vertices _ Hwf) in Hlen; lia].
      apply submseteq_length, NoDup_submseteq; [apply Hwf|done].
    - apply not_Forall_Exists in Hn; [|apply _]. apply Exists_exists in Hn as (w & ? & ?).
      exists w. split; [by apply (wf_vertices _ Hwf)|done]. }
  destruct (lp_deg _ HIv w0 Hw0) as [n0 Hn0].
  destruct (dgn_find_ok (dgn_buckets s)) as (d & X & -> & HX & Hne & _).
  { exists (calc_index n0), w0. by apply (lp_in _ HIv). }
  cbn [mbind res_bind]. rewrite HX. cbn [unwrap mbind res_bind].
  destruct (hash_iter t X) as [|v rest] eqn:EX.
  { exfalso. apply set_choose_L in Hne as [x Hx]. rewrite <- (elem_of_hash_iter t), EX in Hx. set_solver. }
  cbn [head unwrap mbind res_bind].
  assert (v ∈ X) as HvX by (rewrite <- (elem_of_hash_iter t), EX; set_solver).
  assert (inb (dgn_buckets s) d v) as Hvb by (exists X; done).
  pose proof (lp_b _ HIv _ _ Hvb) as (Hv & Hvo & Hvd).
  destruct (nbrs_spec G v Hwf Hv) as (-> & _ & Hnb & _). cbn [mbind res_bind].
  destruct (lupd_spec (dgn_order s) v (dgn_core s) (dgn_deg s) (<[d:=X ∖ {[v]}]> (dgn_buckets s)) Hv (lp_core _ HIv))
    as [->|(r & -> & Hr)]; [|by left|].
  { split; cbn [fst snd].
    - apply HIv.
    - intros w n Hw Hwo Hwv Hn. apply (inb_pop _ _ _ _ _ _ HX). split; [by apply (lp_in _ HIv)|]. naive_solver.
    - intros d' w [Hw Hn]%(inb_pop _ _ _ _ _ _ HX). destruct (lp_b _ HIv _ _ Hw) as (? & ? & Huq). split_and!; [done|done| |].
      + intros ->. exfalso. apply Hn. split; [|done]. by apply Hvd.
      + intros d'' [Hd'' _]%(inb_pop _ _ _ _ _ _ HX). by apply Huq. }
  right. cbn [mbind res_bind]. eexists _, v. split; [done|]. split; [done|].
  split; cbn [dgn_order dgn_deg dgn_core dgn_buckets].
  - intros x [Hx| ->%elem_of_list_singleton]%elem_of_app; [by apply (lp_vtx _ HIv)|done].
  - intros x. rewrite elem_of_app, elem_of_list_singleton, <- (lp_core _ HIv). destruct (decide (x = v)) as [->|].
    + rewrite lookup_insert. split; [by right|eauto].
    + rewrite lookup_insert_ne by done. naive_solver.
  - apply Hr.
  - intros w n Hw Hwo Hn. apply (lu_in _ _ _ _ Hr); set_solver.
  - intros d' w Hw. destruct (lu_b _ _ _ _ Hr _ _ Hw) as (Hwx & Hwo & Hwv & Huq). split_and!; [done| |done].
    intros Hin. destruct (decide (w = v)) as [->|].
    + destruct (Hwv eq_refl) as [Hl Hno]. split; [by apply Hnb|].
      rewrite occ_snoc, decide_True, occ_not_in by done. done.
    + rewrite occ_snoc, decide_False by congruence. rewrite Nat.add_0_r. apply Hwo. set_solver.
  - intros x. pose proof (lp_occ _ HIv x) as [H2 H1]. rewrite occ_snoc. case_decide as E; [|split; [lia|intros; specialize (H1 ltac:(done)); lia]].
    subst x. destruct (decide (v ∈ dgn_order s)) as [Hin|Hnin].
    + destruct (Hvo Hin) as [Hl ->]. split; [lia|done].
    + rewrite occ_not_in by done. lia.
Qed.

Lemma lp_degeneracy : degeneracy G = Panic ∨
  ∃ s, degeneracy G = Ok (dgn_lower (dgn_num s), dgn_num s, reverse (dgn_order s), dgn_core s) ∧
    lp_inv s ∧ length (dgn_order s) = num_vertices G.
Proof.
  unfold degeneracy.
  destruct (fold_res_inv_panic (dgn_step G) (λ l s, lp_inv s ∧ length (dgn_order s) = length l)
    (seq 0 (num_vertices G)) (DgnSt [] (dgn_init G).1 ∅ (dgn_init G).2 0)) as [->|(s & -> & Hs & Hlen)].
  - split; [apply lp_init|done].
  - intros l1 t l2 s Hl [Hs Hlen].
    destruct (lp_step s t Hs) as [?|(s' & v & Hst & Ho & Hs')]; [|by left|].
    + apply (f_equal length) in Hl. rewrite seq_length, app_length in Hl. cbn in Hl. lia.
    + right. exists s'. split; [done|]. split; [done|]. rewrite Ho, !app_length. cbn. lia.
  - by left.
  - right. exists s. rewrite seq_length in Hlen. done.
Qed.
End with_iter.
