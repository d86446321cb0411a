(** Relations between weak and strong reachability. *)
From Verif Require Import Base Spec M_Graph M_Iterators M_OrdGraph M_Linear M_Domset S_Graph S_Linear S_Reach
  P_Graph P_Bipartite P_OrdGraph P_DegenGraph P_Linear P_Linear2 P_Wdist P_Domset P_Approx.

(** [s + s^2 + ... + s^r]. *)
Fixpoint geo (s r : nat) : nat := match r with 0 => 0 | S r => s * (1 + geo s r) end.

Section with_wf.
Context (L : lgraph) (HL : lgraph_wf L).

Lemma split_first (P : N → Prop) `{!∀ x, Decision (P x)} (l : list N) : (∃ x, x ∈ l ∧ P x) →
  ∃ q x rest, l = q ++ x :: rest ∧ P x ∧ ∀ y, y ∈ q → ¬ P y.
Proof.
  induction l as [|a l IH]; intros (x & Hx & HP); [by apply elem_of_nil in Hx|]. destruct (decide (P a)) as [Ha|Ha].
  - exists [], a, l. split_and!; [done|done|]. by intros y Hy%elem_of_nil.
  - apply elem_of_cons in Hx as [->|Hx]; [done|]. destruct IH as (q & y & rest & -> & Hy & Hq); [eauto|].
    exists (a :: q), y, rest. split_and!; [done|done|]. intros z [->|Hz]%elem_of_cons; auto.
Qed.

Lemma before_dec u v : Decision (before (vertices L) u v).
Proof.
  destruct (contains L u) eqn:Eu; [|right; intros Hb; destruct (before_vtx L HL _ _ Hb) as [H1 _]; unfold vtx in H1; congruence].
  destruct (contains L v) eqn:Ev; [|right; intros Hb; destruct (before_vtx L HL _ _ Hb) as [_ H1]; unfold vtx in H1; congruence].
  destruct (index_of L u) as [i| |] eqn:Ei.
  - destruct (index_of L v) as [j| |] eqn:Ej.
    + destruct (decide (i < j)) as [H|H]; [left|right]; rewrite <- (lwf_index_lt L HL u v i j Ei Ej); done.
    + right. intros _. destruct (lwf_index L HL v Ev). congruence.
    + right. intros _. destruct (lwf_index L HL v Ev). congruence.
  - right. intros _. destruct (lwf_index L HL u Eu). congruence.
  - right. intros _. destruct (lwf_index L HL u Eu). congruence.
Qed.
Local Existing Instance before_dec.

Lemma not_left_iff u x : vtx L u → vtx L x → not_left L u x ↔ ¬ before (vertices L) x u.
Proof.
  intros Hu Hx. pose proof (vs_nodup L HL) as Hnd. unfold not_left. split.
  - intros [->|Hb]; [by apply ord_irrefl'|by apply ord_irrefl].
  - intros Hn. destruct (decide (x = u)) as [->|Hne]; [by left|]. right.
    destruct (ord_total (vertices L) x u) as [?|?]; [by apply (vs_vtx L HL)|by apply (vs_vtx L HL)|done|done|done].
Qed.

Lemma walk_vtx p : walk (adj L) p → (∃ u, head p = Some u ∧ vtx L u) → ∀ y, y ∈ p → vtx L y.
Proof.
  induction p as [|a p IH]; intros Hw (u & Hh & Hu) y Hy; [by apply elem_of_nil in Hy|]. cbn in Hh. simplify_eq.
  apply elem_of_cons in Hy as [->|Hy]; [done|]. destruct p as [|b p]; [by apply elem_of_nil in Hy|]. destruct Hw as [Hab Hw].
  apply IH; [done| |done]. exists b. split; [done|]. eapply (wf_adj_vtx _ (lwf_graph L HL)), (wf_adj_sym _ (lwf_graph L HL)), Hab.
Qed.

(** A strongly reachable vertex is the leftmost vertex of the walk. *)
Lemma sreach_is_wreach u x k : vtx L u → before (vertices L) x u → sreach_walk L u x k → wreach_walk L u x k.
Proof.
  intros Hu Hb (q & Hl & Hh & Hw & Hq). exists (q ++ [x]). split_and!; [rewrite app_length; cbn; lia|done|by rewrite last_snoc|done|].
  intros y [Hy|Hy]%elem_of_app; [|left; by apply elem_of_list_singleton in Hy]. right. pose proof (vs_nodup L HL).
  destruct (Hq y Hy) as [->|?]; [done|]. by eapply ord_trans.
Qed.

(** The first vertex left of [u] on a walk that weakly reaches [v]. *)
Lemma wreach_first u v k : before (vertices L) v u → wreach_walk L u v k →
  ∃ x i j, i + j = k ∧ 1 ≤ i ∧ before (vertices L) x u ∧ sreach_walk L u x i ∧ wreach_walk L x v j.
Proof.
  intros Hb (p & Hl & Hh & Hla & Hw & Hp). destruct (before_vtx L HL _ _ Hb) as [Hv Hu].
  assert (∀ y, y ∈ p → vtx L y) as Hpv by (apply walk_vtx; eauto).
  destruct (split_first (λ y, before (vertices L) y u) p) as (q & x & rest & -> & Hx & Hq).
  { exists v. split; [by apply last_Some_elem_of|done]. }
  rewrite app_length in Hl. cbn in Hl. exists x, (length q), (length rest). split_and!.
  - lia.
  - destruct q; cbn; [|lia]. cbn in Hh. simplify_eq. exfalso. by apply (ord_irrefl' _ _ (vs_nodup L HL)) in Hx.
  - done.
  - exists q. split_and!; [done|by destruct q| |].
    + assert (walk (adj L) ((q ++ [x]) ++ rest)) as Hw'; [by rewrite <- app_assoc|]. by apply walk_app_inv in Hw' as [? _].
    + intros y Hy. apply not_left_iff; [done|apply Hpv, elem_of_app; by left|by apply Hq].
  - exists (x :: rest). split_and!; [done|done| |by apply walk_app_inv in Hw as [_ ?]|].
    + rewrite last_app in Hla. destruct (last (x :: rest)) eqn:E; [done|]. by apply last_None in E.
    + intros y Hy. apply Hp, elem_of_app. by right.
Qed.

Lemma wreach_trans u v x a b : before (vertices L) v u → before (vertices L) x v →
  wreach_walk L u v a → wreach_walk L v x b → wreach_walk L u x (a + b).
Proof.
  intros Hvu Hxv (p & Hlp & Hhp & Hlap & Hwp & Hp) (q & Hlq & Hhq & Hlaq & Hwq & Hq).
  destruct q as [|v' q]; [done|]. cbn in Hhq. simplify_eq. pose proof (vs_nodup L HL) as Hnd.
  exists (p ++ q). split_and!.
  - rewrite app_length. cbn in Hlq. lia.
  - by destruct p.
  - rewrite last_app. destruct q as [|y q]; [cbn in *; congruence|]. rewrite last_cons_cons in Hlaq. by rewrite Hlaq.
  - apply walk_app; [done|by destruct q; [|destruct Hwq]|]. intros a' b' Ha Hb. rewrite Hlap in Ha. simplify_eq.
    destruct q; [done|]. cbn in Hb. simplify_eq. by destruct Hwq.
  - intros y [Hy|Hy]%elem_of_app; [|apply Hq; by right]. right. destruct (Hp y Hy) as [->|?]; [done|by eapply ord_trans].
Qed.

Lemma sreach_reach `{HI : HashIter} u x k r s : vtx L u → sreach_spec L u r s → before (vertices L) x u → k ≤ r →
  sreach_walk L u x k → ∃ j, s !! x = Some j ∧ j ≤ k.
Proof.
  intros Hu Hsp Hb Hk Hw. destruct (s !! x) as [j|] eqn:E.
  - exists j. split; [done|]. apply Hsp in E as (_ & _ & _ & Hmin). by apply Hmin.
  - exfalso. assert (∀ n, n ≤ k → ¬ sreach_walk L u x n) as Hno; [|by apply (Hno k)].
    intros n. induction (lt_wf n) as [n _ IH]. intros Hn Hwn.
    assert (s !! x = Some n) as HH; [|congruence]. apply Hsp. split; [done|].
    split; [|split; [done|]].
    + pose proof (sreach_walk_pos L HL u x n Hb Hwn). lia.
    + intros j Hj. destruct (decide (n ≤ j)) as [|Hlt]; [done|]. exfalso. apply (IH j); [lia|lia|done].
Qed.

(** The size bound, by induction on the radius. *)
Lemma wreach_size_geo (r s : nat) (S : N → gmap N nat) (W : nat → gmap N (gmap N nat)) :
  (∀ u, vtx L u → ∀ x k, before (vertices L) x u → k ≤ r → sreach_walk L u x k → x ∈ dom (S u)) →
  (∀ u, vtx L u → size (S u) ≤ s) → (∀ k, k ≤ r → wreach_map L k (W k)) →
  ∀ n, n ≤ r → ∀ u w, W n !! u = Some w → size w ≤ geo s n.
Proof.
  intros HS Hs HWm n. induction n as [|n IH]; intros Hn u w Hw.
  - cbn. assert (w = ∅) as ->; [|by rewrite map_size_empty]. apply map_empty. intros v. apply eq_None_not_Some. intros [k Hk].
    destruct (wm_entry L HL 0 (W 0) (HWm 0 Hn) u w v k Hw Hk) as (_ & _ & _ & _ & ? & ? & _). lia.
  - specialize (IH ltac:(lia)). assert (vtx L u) as Hu by (apply (HWm (Datatypes.S n) Hn); eauto).
    set (F := λ x, {[x]} ∪ dom (default ∅ (W n !! x)) : gset N).
    assert (size (dom w : gset N) ≤ size (dom (S u) : gset N) * (1 + geo s n)) as HH.
    { apply (size_cover _ _ F).
      - intros v [k Hk]%elem_of_dom. pose proof Hk as Hk'. apply (proj2 (HWm (Datatypes.S n) Hn) u w Hw) in Hk' as (Hb & Hkn & Hwk & _).
        destruct (wreach_first u v k Hb Hwk) as (x & i & j & Hij & Hi & Hx & Hsx & Hjx).
        exists x. split; [eapply (HS u Hu x i); [done|lia|done]|]. unfold F.
        destruct (decide (x = v)) as [->|Hne]; [by apply elem_of_union_l, elem_of_singleton|]. apply elem_of_union_r.
        destruct (before_vtx L HL _ _ Hx) as [Hxv _].
        destruct (wm_reach L HL n (W n) (HWm n ltac:(lia)) x v j Hxv Hne ltac:(lia) Hjx) as (wx & jj & -> & Hjj & _).
        cbn. apply elem_of_dom. eauto.
      - intros x _. unfold F. rewrite size_union_alt, size_singleton. apply le_n_S. etrans; [apply subseteq_size, subseteq_difference_l; reflexivity|].
        destruct (W n !! x) as [wx|] eqn:E; cbn [default]; [|rewrite dom_empty_L, size_empty; lia].
        rewrite size_dom. exact (IH x wx E). }
    rewrite !size_dom in HH. etrans; [exact HH|]. cbn [geo]. apply Nat.mul_le_mono_r. by apply Hs.
Qed.

End with_wf.
