(** Proofs about [degeneracy] on graphs whose neighbour lists may repeat items. *)
From Verif Require Import Base Spec M_Graph M_Iterators M_EditGraph M_Algorithms S_Graph S_Multi P_Graph P_Iterators P_Degeneracy.

(** How often [v] occurs in [l]. *)
Definition occ (v : N) (l : list N) : nat := length (filter (λ u, u = v) l).
Lemma occ_app v l1 l2 : occ v (l1 ++ l2) = occ v l1 + occ v l2.
Proof. unfold occ. by rewrite filter_app, app_length. Qed.
Lemma occ_cons v u l : occ v (u :: l) = (if decide (u = v) then 1 else 0) + occ v l.
Proof. unfold occ. rewrite filter_cons. by case_decide. Qed.
Lemma occ_pos v l : v ∈ l ↔ 0 < occ v l.
Proof.
  induction l as [|u l IH]; [cbn; split; [set_solver|lia]|]. rewrite occ_cons, elem_of_cons, IH.
  case_decide; split; try naive_solver lia.
Qed.

(** Neighbour lists count edges: as often as [v] occurs at [u], [u] occurs at [v]; the degree counts all. *)
Record multi_wf (G : graph) : Prop := {
  mw_weak : weak_wf G;
  mw_degree : ∀ v l, vtx G v → neighbours G v = Ok l → degree G v = length l;
  mw_sym : ∀ u v lu lv, vtx G u → vtx G v → neighbours G u = Ok lu → neighbours G v = Ok lv → occ v lu = occ u lv;
}.

Lemma rdeg_multi G ord v w : v ∉ ord → rdeg G ord w = rdeg G (ord ++ [v]) w + occ v (nbrs G w).
Proof.
  intros Hv. unfold rdeg. induction (nbrs G w) as [|x l IH]; [done|]. rewrite !filter_cons, occ_cons.
  destruct (decide (x = v)) as [->|Hx].
  - rewrite (decide_True (P := v ∉ ord)) by done. rewrite decide_False by (rewrite elem_of_app, elem_of_list_singleton; tauto). cbn. lia.
  - destruct (decide (x ∉ ord)), (decide (x ∉ ord ++ [v])); cbn; try lia; exfalso; rewrite elem_of_app, elem_of_list_singleton in *; tauto.
Qed.

Section with_iter.
Context `{HI : HashIter}.
Context (G : graph) (Hwf : multi_wf G) (Hloop : loopless G).

Lemma occ_nbrs u v : vtx G u → vtx G v → occ v (nbrs G u) = occ u (nbrs G v).
Proof using Hwf.
  intros Hu Hv. destruct (nbrs_weak G u (mw_weak _ Hwf) Hu) as [Eu _], (nbrs_weak G v (mw_weak _ Hwf) Hv) as [Ev _].
  by apply (mw_sym _ Hwf).
Qed.

(** State of the neighbour loop after processing [l1]. *)
Record mupd_inv (ord : list N) (v : N) (l1 : list N) (s : gmap N nat * gmap nat (gset N)) : Prop := {
  mu_deg : ∀ w, vtx G w → w ∉ ord → w ≠ v → s.1 !! w = Some (rdeg G ord w - occ w l1);
  mu_b : ∀ d w, inb s.2 d w ↔ vtx G w ∧ w ∉ ord ∧ w ≠ v ∧ d = calc_index (rdeg G ord w - occ w l1);
}.

Lemma dgn_update_multi ord v core deg b :
  vtx G v → v ∉ ord → (∀ u, is_Some (core !! u) ↔ u ∈ ord) →
  upd_inv G ord v [] (deg, b) →
  ∃ s, fold_res (dgn_update core) (nbrs G v) (deg, b) = Ok s ∧
    (∀ w, vtx G w → w ∉ ord ++ [v] → s.1 !! w = Some (rdeg G (ord ++ [v]) w)) ∧
    (∀ d w, inb s.2 d w ↔ vtx G w ∧ w ∉ ord ++ [v] ∧ d = calc_index (rdeg G (ord ++ [v]) w)).
Proof using Hwf Hloop.
  intros Hv Hvo Hcore H0. pose proof (mw_weak _ Hwf) as Hww. destruct (nbrs_weak G v Hww Hv) as (_ & Hin).
  assert (mupd_inv ord v [] (deg, b)) as H0'.
  { split.
    - intros w Hw Hwo Hwv. rewrite (ui_deg _ _ _ _ _ H0 w Hw Hwo Hwv). by rewrite decide_False by set_solver.
    - intros d w. rewrite (ui_b _ _ _ _ _ H0). rewrite decide_False by set_solver. done. }
  destruct (fold_res_inv (dgn_update core) (mupd_inv ord v) (nbrs G v) (deg, b) H0') as (s & Hs & HIs).
  - intros l1 u l2 s Hl HIs. unfold dgn_update.
    assert (adj G v u) as Hvu by (apply Hin; rewrite Hl; set_solver).
    pose proof (ww_adj_sym _ Hww _ _ Hvu) as Huv. assert (vtx G u) as Hu by (by apply (ww_adj_vtx _ Hww u v)).
    assert (u ≠ v) as Hne by (intros ->; by apply (Hloop v)).
    assert (∀ w, w ≠ u → occ w (l1 ++ [u]) = occ w l1) as Hoc.
    { intros w Hw. rewrite occ_app, occ_cons, decide_False by done. cbn. lia. }
    destruct (core !! u) as [c|] eqn:Ec.
    + assert (u ∈ ord) as Huo by (apply Hcore; eauto). exists s. split; [done|]. split.
      * intros w Hw Hwo Hwv. rewrite (mu_deg _ _ _ _ HIs) by done.
        assert (w ≠ u) by (intros ->; done). by rewrite Hoc.
      * intros d w. rewrite (mu_b _ _ _ _ HIs). split; intros (? & ? & ? & ->); split_and!; try done;
          (assert (w ≠ u) by (intros ->; done)); by rewrite Hoc.
    + assert (u ∉ ord) as Huo by (rewrite <- Hcore, Ec; by intros [? ?]).
      pose proof (rdeg_multi G ord v u Hvo) as Hrd.
      rewrite (occ_nbrs u v Hu Hv), Hl, occ_app, occ_cons, decide_True in Hrd by done.
      rewrite (mu_deg _ _ _ _ HIs) by done. cbn [unwrap mbind res_bind].
      set (du := rdeg G ord u - occ u l1) in *. assert (rdeg G ord u - occ u (l1 ++ [u]) = du - 1) as Hdu.
      { unfold du. rewrite occ_app, occ_cons, decide_True by done. cbn. lia. }
      unfold sub_checked. rewrite (proj2 (Nat.leb_le 1 du)) by (unfold du; lia). cbn [mbind res_bind].
      eexists; split; [done|].
      assert (∀ d w, inb
          (if calc_index du =? calc_index (du - 1) then s.2
           else map_upd ∅ (λ X, {[u]} ∪ X) (calc_index (du - 1))
                  (alter (λ X, X ∖ {[u]}) (calc_index du) s.2)) d w ↔
          (w ≠ u ∧ inb s.2 d w) ∨ (w = u ∧ d = calc_index (du - 1))) as Hb.
      { intros d w. assert (∀ d, inb s.2 d u ↔ d = calc_index du) as Hbu.
        { intros d'. rewrite (mu_b _ _ _ _ HIs). fold du. naive_solver. }
        destruct (Nat.eqb_spec (calc_index du) (calc_index (du - 1))) as [He|He].
        - rewrite <- He. destruct (decide (w = u)) as [->|]; [rewrite Hbu|]; naive_solver.
        - rewrite inb_add, inb_remove. destruct (decide (w = u)) as [->|]; [rewrite Hbu|]; naive_solver. }
      split; cbn [fst snd].
      * intros w Hw Hwo Hwv. destruct (decide (w = u)) as [->|].
        -- rewrite lookup_insert. by rewrite Hdu.
        -- rewrite lookup_insert_ne, (mu_deg _ _ _ _ HIs), Hoc by done. done.
      * intros d w. rewrite Hb, (mu_b _ _ _ _ HIs). destruct (decide (w = u)) as [->|Hwu].
        -- rewrite Hdu. naive_solver.
        -- rewrite (Hoc w Hwu). naive_solver.
  - exists s. split; [done|].
    assert (∀ w, vtx G w → rdeg G ord w - occ w (nbrs G v) = rdeg G (ord ++ [v]) w) as Hr.
    { intros w Hw. pose proof (rdeg_multi G ord v w Hvo) as Hrd. rewrite (occ_nbrs w v Hw Hv) in Hrd. lia. }
    split.
    + intros w Hw Hwo. rewrite elem_of_app, elem_of_list_singleton in Hwo.
      rewrite (mu_deg _ _ _ _ HIs), Hr by tauto. done.
    + intros d w. rewrite (mu_b _ _ _ _ HIs), elem_of_app, elem_of_list_singleton. split.
      * intros (? & ? & ? & ->). rewrite Hr by done. tauto.
      * intros (? & ? & ->). rewrite Hr by done. tauto.
Qed.

Lemma degeneracy_multi :
  ∃ s, degeneracy G = Ok (dgn_lower (dgn_num s), dgn_num s, reverse (dgn_order s), dgn_core s) ∧
    dgn_inv G s ∧ (∀ v, v ∈ dgn_order s ↔ vtx G v).
Proof using Hwf Hloop.
  apply degeneracy_gen; [apply Hwf| |apply dgn_update_multi].
  intros w Hw. destruct (nbrs_weak G w (mw_weak _ Hwf) Hw) as (Hn & _). rewrite (mw_degree _ Hwf w _ Hw Hn). unfold rdeg.
  f_equal. clear. induction (nbrs G w) as [|x l IH]; [done|]. rewrite filter_cons_True by set_solver. by f_equal.
Qed.
End with_iter.
