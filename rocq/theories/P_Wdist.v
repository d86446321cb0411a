(** Distances from weak reachability: on a shortest walk both ends weakly reach its leftmost
    vertex. *)
From Verif Require Import Base Spec M_Graph M_Iterators M_OrdGraph M_Linear M_Domset S_Graph S_Linear S_Reach
  P_Graph P_Bipartite P_OrdGraph P_DegenGraph P_Linear P_Linear2.

(** [W] maps every vertex to its weakly [r]-reachable vertices. *)
Definition wreach_map (L : lgraph) (r : nat) (W : gmap N (gmap N nat)) : Prop :=
  (∀ u, is_Some (W !! u) ↔ vtx L u) ∧ ∀ u w, W !! u = Some w → wreach_spec L u r w.

Section with_wf.
Context (L : lgraph) (HL : lgraph_wf L).
Let HW := lwf_graph L HL.

Lemma least_exists (P : nat → Prop) k : (∀ n, P n ∨ ¬ P n) → P k → ∃ j, j ≤ k ∧ least P j.
Proof.
  intros Hdec. induction (lt_wf k) as [k _ IH]. intros Hk.
  assert ((∃ j, j < k ∧ P j) ∨ ¬ ∃ j, j < k ∧ P j) as [(j & Hj & HP)|Hn].
  { clear IH Hk. induction k as [|k IHk]; [right; intros (j & ? & _); lia|].
    destruct IHk as [(j & ? & ?)|Hn]; [left; exists j; split; [lia|done]|].
    destruct (Hdec k); [left; exists k; split; [lia|done]|]. right. intros (j & Hj & HP).
    destruct (decide (j = k)) as [->|]; [done|]. apply Hn. exists j. split; [lia|done]. }
  - destruct (IH j Hj HP) as (i & ? & ?). exists i. split; [lia|done].
  - exists k. split; [lia|]. split; [done|]. intros j HP. destruct (decide (k ≤ j)); [done|].
    exfalso. apply Hn. exists j. split; [lia|done].
Qed.

(** The leftmost vertex of a non-empty list of vertices. *)
Lemma leftmost (p : list N) : p ≠ [] → (∀ x, x ∈ p → vtx L x) →
  ∃ p1 w p2, p = p1 ++ w :: p2 ∧ ∀ y, y ∈ p → not_left L w y.
Proof.
  induction p as [|x p IH]; [done|]. intros _ Hv. destruct p as [|y p].
  - exists [], x, []. split; [done|]. intros z ->%elem_of_list_singleton. by left.
  - destruct IH as (p1 & w & p2 & Heq & Hw); [done|set_solver|].
    assert (vtx L w) as Hvw by (apply Hv; rewrite Heq; set_solver).
    assert (vtx L x) as Hvx by (apply Hv; left).
    destruct (decide (x = w)) as [->|Hne].
    { exists [], w, (y :: p). split; [done|]. intros z [->|Hz]%elem_of_cons; [by left|auto]. }
    destruct (ord_total (vertices L) x w) as [Hb|Hb]; [by apply (vs_vtx L HL)..|done| |].
    + exists [], x, (y :: p). split; [done|]. intros z [->|Hz]%elem_of_cons; [by left|].
      destruct (Hw z Hz) as [->|Hz']; [by right|]. right. by eapply (ord_trans _ _ _ _ (vs_nodup L HL)).
    + exists (x :: p1), w, p2. split; [by rewrite Heq|]. intros z [->|Hz]%elem_of_cons; [by right|auto].
Qed.

Lemma nsteps_walk n x y : nsteps (adj L) n x y ↔
  ∃ p, length p = S n ∧ head p = Some x ∧ last p = Some y ∧ walk (adj L) p.
Proof.
  pose proof (walk_nsteps (adj L) (λ _, True) n x y I) as Hw. split.
  - intros Hn. destruct (proj1 Hw) as (p & ? & ? & ? & ? & _); [|eauto 10].
    clear Hw. induction Hn; [constructor|]. econstructor; [|done]. done.
  - intros (p & ? & ? & ? & ?). destruct Hw as [_ Hw]. assert (nsteps (λ a b, adj L a b ∧ True ∧ True) n x y) as Hn.
    { apply Hw. eauto 10. } clear -Hn. induction Hn; [constructor|]. destruct H as [? _]. by econstructor.
Qed.

Section with_map.
Context (r : nat) (W : gmap N (gmap N nat)) (HWm : wreach_map L r W).

Lemma wm_get u : vtx L u → ∃ w, W !! u = Some w ∧ wreach_spec L u r w.
Proof. destruct HWm as [H1 H2]. intros [w Hw]%H1. eauto. Qed.

Lemma wm_entry u w v k : W !! u = Some w → w !! v = Some k →
  before (vertices L) v u ∧ v ≠ u ∧ vtx L u ∧ vtx L v ∧ 1 ≤ k ∧ k ≤ r ∧ nsteps (adj L) k u v.
Proof.
  destruct HWm as [_ H2]. intros Hw Hk. apply (H2 u w Hw) in Hk as (Hb & Hle & (p & Hl & Hh & Hla & Hwk & _) & _).
  destruct (before_vtx L HL _ _ Hb) as [? ?]. assert (v ≠ u) as Hne.
  { intros ->. by apply (ord_irrefl' _ _ (vs_nodup L HL)) in Hb. }
  split_and!; [done|done|done|done| |done|apply nsteps_walk; eauto 10].
  destruct k; [|lia]. destruct p as [|a [|]]; cbn in *; simplify_eq.
Qed.

(** A walk whose leftmost vertex is its end bounds the entry. *)
Lemma wm_reach u v k : vtx L u → u ≠ v → k ≤ r → wreach_walk L u v k →
  ∃ w j, W !! u = Some w ∧ w !! v = Some j ∧ j ≤ k.
Proof.
  intros Hu Hne Hk Hw. destruct (wm_get u Hu) as (w & HWu & Hsp). exists w.
  assert (before (vertices L) v u) as Hb.
  { destruct Hw as (p & _ & Hh & _ & _ & Hp). assert (u ∈ p) as Hup by (by apply head_Some_elem_of). destruct (Hp u Hup) as [Heq|Hb]; [by destruct Hne|exact Hb]. }
  destruct (before_vtx L HL _ _ Hb) as [Hv _].
  destruct (w !! v) as [j|] eqn:E.
  - exists j. split_and!; [done|done|]. apply Hsp in E as (_ & _ & _ & Hmin). by apply Hmin.
  - exfalso. assert (∀ n, n ≤ k → ¬ wreach_walk L u v n) as Hno; [|by apply (Hno k)].
    intros n. induction (lt_wf n) as [n _ IH]. intros Hn Hwn.
    assert (w !! v = Some n) as HH; [|congruence]. apply Hsp. split; [done|]. split; [lia|]. split; [done|].
    intros j Hj. destruct (decide (n ≤ j)) as [|Hlt]; [done|]. exfalso. apply (IH j); [lia|lia|done].
Qed.

(** The three ways in which the reachability sets see a short distance. *)
Lemma wm_dist x y n : vtx L x → x ≠ y → n ≤ r → nsteps (adj L) n x y →
  ∃ Wx Wy, W !! x = Some Wx ∧ W !! y = Some Wy ∧
    ((∃ k, Wx !! y = Some k ∧ k ≤ n) ∨ (∃ k, Wy !! x = Some k ∧ k ≤ n) ∨
     ∃ w kx ky, Wx !! w = Some kx ∧ Wy !! w = Some ky ∧ kx + ky ≤ n).
Proof.
  intros Hx Hne Hn Hns. assert (vtx L y) as Hy by (by eapply nsteps_vtx).
  destruct (wm_get x Hx) as (Wx & HWx & _). destruct (wm_get y Hy) as (Wy & HWy & _). exists Wx, Wy.
  split; [done|]. split; [done|]. apply nsteps_walk in Hns as (p & Hl & Hh & Hla & Hwk).
  assert (∀ z, z ∈ p → vtx L z) as Hpv.
  { clear -Hwk Hh Hx HL HW. revert x Hx Hh. induction p as [|a [|b p] IH]; intros x Hx Hh z Hz; [set_solver| |].
    - cbn in Hh. simplify_eq. by apply elem_of_list_singleton in Hz as ->.
    - destruct Hwk as [Hab Hwk]. apply elem_of_cons in Hz as [->|Hz]; [cbn in Hh; by simplify_eq|].
      eapply (IH Hwk b); [by eapply (adj_r L HL)|done|done]. }
  destruct (leftmost p) as (p1 & w & p2 & -> & Hlm); [by destruct p|done|].
  pose proof (walk_app_inv _ _ _ Hwk) as [Hw1 Hw2].
  assert (walk (adj L) (p1 ++ [w])) as Hw1'.
  { replace (p1 ++ w :: p2) with ((p1 ++ [w]) ++ p2) in Hwk by (by rewrite <- (assoc_L (++))).
    apply walk_app_inv in Hwk as [? _]. done. }
  rewrite app_length in Hl. cbn [length] in Hl.
  assert (wreach_walk L x w (length p1)) as Hrx.
  { exists (p1 ++ [w]). split_and!; [rewrite app_length; cbn; lia| |by rewrite last_snoc|done|].
    - destruct p1; cbn in *; done.
    - intros z Hz. apply Hlm. set_solver. }
  assert (wreach_walk L y w (length p2)) as Hry.
  { exists (reverse (w :: p2)). split_and!.
    - by rewrite reverse_length.
    - rewrite head_reverse. by rewrite last_app_cons in Hla.
    - by rewrite last_reverse.
    - by apply walk_reverse; [apply (wf_adj_sym _ HW)|].
    - intros z Hz%elem_of_reverse. apply Hlm. set_solver. }
  destruct (decide (x = w)) as [->|Hxw].
  - right; left. destruct (wm_reach y w (length p2)) as (? & j & ? & ? & ?); [done|done|lia|done|]. simplify_eq.
    exists j. split; [done|lia].
  - destruct (wm_reach x w (length p1)) as (? & j & ? & Hj & ?); [done|done|lia|done|]. simplify_eq.
    destruct (decide (y = w)) as [->|Hyw]; [left; exists j; split; [done|lia]|].
    destruct (wm_reach y w (length p2)) as (? & i & ? & ? & ?); [done|done|lia|done|]. simplify_eq.
    right; right. exists w, j, i. split_and!; [done|done|lia].
Qed.
End with_map.
End with_wf.
