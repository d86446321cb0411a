(** Property theorems C80 and C81: the quality of the dominating sets computed by the linear-graph
    algorithm, and the lower bound certified by its witness. *)
From Verif Require Import Base Spec M_Graph M_Iterators M_EditGraph M_Operations M_OrdGraph M_Linear M_Colouring M_Domset
  S_Graph S_Linear S_Reach S_Cliques P_Graph P_EditGraph P_EditGraph2 P_Operations P_OrdGraph P_OrdGraph2 P_Linear P_Linear2
  P_Wdist P_Greedy P_Domset P_Conflict P_Approx T_OrdGraph T_Linear T_Domset Examples.

(** Every vertex weakly [r]-reaches at most [w] vertices to its left. *)
Definition wreach_at_most (L : lgraph) (r w : nat) : Prop :=
  ∀ u l, NoDup l → (∀ v, v ∈ l → before (vertices L) v u ∧ ∃ k, k ≤ r ∧ wreach_walk L u v k) → length l ≤ w.

(** [X] is a set of vertices that dominates the vertices of [T] at distance [r]. *)
Definition r_dominates (L : lgraph) (r : nat) (T : list N) (X : gset N) : Prop :=
  (∀ x, x ∈ X → contains L x = true) ∧
  ∀ v, v ∈ T → contains L v = true → ∃ x, x ∈ X ∧ within (adj L) r x v.

Section with_iter.
Context `{HashIter}.

(** ** C80 *)
Theorem C80_approximation (L : lgraph) (r : nat) (witness : bool) (T : list N) (D : gset N) dd o (w : nat) (X : gset N) :
  lgraph_wf L → wreach_at_most L r w → domset_with_target L r witness T = Ok (D, dd, o) → r_dominates L r T X →
  size D ≤ size X * ((w + 1) * (w + 1 + 4 * r * r)).
Proof.
  intros HL Hw Hok [HXv HX]. unfold domset_with_target in Hok.
  destruct (g_is_empty L || bool_decide ((collect_set T : gset N) = ∅)).
  { injection Hok as <- _ _. rewrite size_empty. lia. }
  apply bind_ok in Hok as ([] & Hr & Hok).
  assert (radius_ok r) as Hr'.
  { unfold radius_ok. destruct (N.of_nat (2 * r) * N.of_nat (2 * r) <? u32_mod)%N eqn:E; [by apply N.ltb_lt|done]. }
  pose proof (radius_small r Hr') as Hr1. destruct (ds_order_spec L HL) as (order & Ho & Hperm). rewrite Ho in Hok. cbn [mbind res_bind] in Hok.
  destruct (wreach_sets_spec L HL r) as (W & HWok & HWm); [lia|]. rewrite HWok in Hok. cbn [mbind res_bind] in Hok.
  destruct (ds_loop_spec L HL r W HWm (collect_set T) r (2 * r * (2 * r)) order Hperm) as (st & Hst & Hinv).
  rewrite Hst in Hok. cbn [mbind res_bind] in Hok. pose proof (cnt_loop L HL r W HWm (collect_set T) _ order st Hperm Hst) as Hcnt.
  destruct (loop_size L HL r W HWm (collect_set T) (2 * r * (2 * r)) st w X order Hinv Hcnt) as (_ & _ & Hsz).
  - intros u Wu Hu. rewrite <- (size_dom Wu). unfold size, set_size. cbn. apply (Hw u); [apply NoDup_elements|].
    intros v Hv%elem_of_elements. apply elem_of_dom in Hv as [k Hk]. destruct HWm as [_ Hsp].
    apply (Hsp u Wu Hu) in Hk as (Hb & Hle & Hwalk & _). eauto.
  - exact HXv.
  - intros v Hv. apply HX. by apply elem_of_list_to_set in Hv.
  - assert (D = ds_dom st) as ->.
    { destruct witness; cbn [negb] in Hok; [|congruence]. apply bind_ok in Hok as (? & _ & Hok). apply bind_ok in Hok as (? & _ & Hok).
      apply bind_ok in Hok as (? & _ & Hok). congruence. }
    replace (w + 1 + 4 * r * r) with (S (2 * r * (2 * r)) + w) by lia. exact Hsz.
Qed.

(** ** C81 *)
Lemma injective_count (R : N → N → Prop) l : ∀ X : gset N, NoDup l → (∀ v, v ∈ l → ∃ x, x ∈ X ∧ R x v) →
  (∀ x u v, u ∈ l → v ∈ l → R x u → R x v → u = v) → length l ≤ size X.
Proof.
  induction l as [|v l IH]; intros X Hnd Hex Hinj; [cbn; lia|]. apply NoDup_cons in Hnd as [Hv Hnd].
  destruct (Hex v) as (x & Hx & Hxv); [left|]. specialize (IH (X ∖ {[x]}) Hnd) as IH'. cbn [length].
  assert (size X = S (size (X ∖ {[x]}))) as ->.
  { rewrite (union_difference_singleton_L x X Hx) at 1. rewrite size_union, size_singleton by set_solver. done. }
  apply le_n_S, IH'.
  - intros u Hu. destruct (Hex u) as (y & Hy & Hyu); [by right|]. exists y. split; [|done]. apply elem_of_difference. split; [done|].
    intros ->%elem_of_singleton. apply Hv. rewrite (Hinj x v u); [done|left|by right|done|done].
  - intros y a b Ha Hb. apply Hinj; by right.
Qed.

(** Each colour class of the witness is at most as large as any dominating set. *)
Theorem C81_witness_lower_bound (L : lgraph) (r : nat) (T : list N) (D : gset N) dd c (X : gset N) :
  lgraph_wf L → domset_with_target L r true T = Ok (D, dd, Some c) → r_dominates L r T X →
  ∀ a l, NoDup l → (∀ v, v ∈ l → c !! v = Some a) → length l ≤ size X.
Proof.
  intros HL Hok [HXv HX] a l Hnd Hl. destruct (C48_witness L r T D dd (Some c) HL Hok) as (c' & [= <-] & Hin & Hsc).
  assert (∀ v, v ∈ D → contains L v = true) as HD.
  { destruct (decide (N.of_nat (2 * r) * N.of_nat (2 * r) < u32_mod)%N) as [Hr|Hr].
    - destruct (C46_with_witness_partial L r T HL Hr) as (HH & _). by destruct (HH D dd _ Hok) as [? _].
    - unfold domset_with_target in Hok. destruct (g_is_empty L || _); [injection Hok as <- _ _; set_solver|].
      replace (N.of_nat (2 * r) * N.of_nat (2 * r) <? u32_mod)%N with false in Hok by (symmetry; apply N.ltb_ge; lia). done. }
  apply (injective_count (within (adj L) r) l X Hnd).
  - intros v Hv. destruct (Hin v a (Hl v Hv)). apply HX; auto.
  - intros x u v Hu Hv (n & Hn & Hxu) (m & Hm & Hxv). destruct (decide (u = v)) as [|Hne]; [done|]. exfalso.
    assert (nsteps (adj L) (n + m) u v) as Hs.
    { eapply nsteps_trans; [|exact Hxv]. apply (nsteps_sym (adj L)); [apply (wf_adj_sym _ (lwf_graph L HL))|done]. }
    specialize (Hsc u v a (n + m) (Hl u Hu) (Hl v Hv) Hne Hs). lia.
Qed.

(** Both together: the set returned and the witness bracket the size of a smallest dominating set. *)
Theorem C81_bracket (L : lgraph) (r w : nat) (T : list N) : lgraph_wf L → radius_ok r → wreach_at_most L r w →
  size (list_to_set T : gset N) ≤ 130 →
  ∃ D dd c, domset_with_target L r true T = Ok (D, dd, Some c) ∧
    ∀ X, r_dominates L r T X → size D ≤ size X * ((w + 1) * (w + 1 + 4 * r * r)) ∧
      ∀ a l, NoDup l → (∀ v, v ∈ l → c !! v = Some a) → length l ≤ size X.
Proof.
  intros HL Hr Hw Hsz. destruct (C46_with_witness_partial L r T HL Hr) as (_ & _ & Hex). destruct (Hex Hsz) as (D & dd & c & Hok).
  exists D, dd, c. split; [done|]. intros X HX. split; [by eapply C80_approximation|exact (C81_witness_lower_bound L r T D dd c X HL Hok HX)].
Qed.

End with_iter.

(** ** Examples *)
Local Existing Instance std_iter.

(** A star with the hub 0 and 20 leaves: the bound is 12, the algorithm returns 6 vertices, one
    vertex is optimal and the graph has 21. *)
Definition ex_star_edges : list (N * N) := (λ i, (0, i)%N) <$> nrange 1 20.
Definition ex_star : lgraph := ex_lin ex_star_edges (nrange 0 21).
Lemma ex_star_spec : lgraph_wf ex_star ∧ (∀ u, contains ex_star u = true ↔ u ∈ nrange 0 21) ∧
  ∀ u v, adj ex_star u v ↔ (u, v) ∈ ex_star_edges ∨ (v, u) ∈ ex_star_edges.
Proof.
  destruct (ex_lin_spec ex_star_edges (nrange 0 21)) as (_ & Hwf & _ & Hc & Ha); [vm_compute; done|].
  split; [exact Hwf|]. split; [exact Hc|exact Ha].
Qed.
Example ex_C80_hyp : lgraph_wf ex_star ∧ radius_ok 1 ∧ wreach_at_most ex_star 1 1 ∧ r_dominates ex_star 1 (nrange 0 21) {[0%N]}.
Proof.
  destruct ex_star_spec as (Hwf & Hc & Ha). split; [exact Hwf|]. split; [vm_compute; done|].
  assert (∀ u v, (u, v) ∈ ex_star_edges → u = 0%N ∧ (1 <= v)%N) as Hst.
  { assert (Forall (λ e : N * N, e.1 = 0%N ∧ (1 <= e.2)%N) ex_star_edges) as HF by (apply (bool_decide_unpack _); vm_compute; exact I).
    rewrite Forall_forall in HF. intros u v Huv. exact (HF (u, v) Huv). }
  split.
  - intros u l Hnd Hl. assert (∀ v, v ∈ l → v = 0%N) as H0.
    { intros v Hv. destruct (Hl v Hv) as (Hb & k & Hk & p & Hlen & Hh & Hla & Hwk & _).
      assert (u ≠ v) as Hne by (intros ->; destruct Hb as (i & j & Hi & Hj & ?); assert (i = j) by (eapply NoDup_lookup; [apply (vs_nodup _ Hwf)|done|done]); lia).
      assert (adj ex_star u v) as Hadj.
      { destruct p as [|a [|b [|d p]]]; cbn in Hlen; [lia| | |lia]; cbn in Hh, Hla; simplify_eq. by inversion Hwk. }
      apply Ha in Hadj as [[-> Hv1]%Hst|[? _]%Hst]; [|done]. exfalso.
      destruct Hb as (i & j & Hi & Hj & Hlt). change (vertices ex_star) with (nrange 0 21) in Hi, Hj.
      assert ((nrange 0 21) !! 0 = Some 0%N) as Hz by done.
      assert (j = 0) as ->; [|lia]. eapply NoDup_lookup; [|exact Hj|exact Hz]. apply (bool_decide_unpack _). vm_compute. exact I. }
    destruct l as [|a [|b l]]; cbn; [lia|lia|]. exfalso. apply NoDup_cons in Hnd as [Hn _]. apply Hn.
    rewrite (H0 a), (H0 b) by (repeat (apply elem_of_cons; (by left) || right)). left.
  - split.
    + intros x ->%elem_of_singleton. apply Hc. apply (bool_decide_unpack _). vm_compute. exact I.
    + intros v Hv _. exists 0%N. split; [by apply elem_of_singleton|]. assert (Forall (λ v, v = 0%N ∨ (0%N, v) ∈ ex_star_edges) (nrange 0 21)) as HF.
      { apply (bool_decide_unpack _). vm_compute. exact I. }
      rewrite Forall_forall in HF. destruct (HF v Hv) as [->|Hin]; [exists 0; split; [lia|constructor]|]. exists 1. split; [done|]. apply nsteps_once, Ha. by left.
Qed.
Example ex_C80 :
  match domset_with_target ex_star 1 true (nrange 0 21) with
  | Ok (D, dd, Some c) => size D = 6 ∧ size (dom c : gset N) = 5 ∧ 1 * ((1 + 1) * (1 + 1 + 4 * 1 * 1)) = 12
  | _ => False
  end.
Proof. vm_compute. done. Qed.

Print Assumptions C80_approximation.
Print Assumptions C81_witness_lower_bound.
Print Assumptions C81_bracket.
