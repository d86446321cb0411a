(** Property theorems C84 and C85: how the weakly and the strongly reachable sets computed by the
    linear-graph algorithms relate to each other, and what that means for the dominating sets. *)
From Verif Require Import Base Spec M_Graph M_Iterators M_EditGraph M_OrdGraph M_Linear M_Domset S_Graph S_Linear S_Reach
  P_Graph P_Bipartite P_OrdGraph P_OrdGraph2 P_DegenGraph P_Linear P_Linear2 P_Wdist P_Domset P_Approx P_ReachRel
  T_Linear T_Domset T_Approx Examples.

Section with_iter.
Context `{HI : HashIter}.

(** ** C84: a strongly reachable vertex is weakly reachable at no greater distance; for radius 1
    both sets are the left neighbours. *)
Theorem C84_strong_is_weak (L : lgraph) (u : N) (r : nat) : lgraph_wf L → contains L u = true → 1 ≤ r → (N.of_nat r + 1 < u32_mod)%N →
  ∃ s W w, sreach_set L u r = Ok s ∧ wreach_sets L r = Ok W ∧ W !! u = Some w ∧
    (∀ x k, s !! x = Some k → ∃ j, w !! x = Some j ∧ j ≤ k) ∧
    (r = 1 → w = s ∧ ∀ x, (∃ k, s !! x = Some k) ↔ adjacent L u x = true ∧ before (vertices L) x u).
Proof.
  intros HL Hu Hr Hr2. destruct (sreach_set_spec L HL u r Hu Hr) as (s & Hs & Hss); [lia|].
  destruct (wreach_sets_spec L HL r Hr2) as (W & HW & HWm). destruct (wm_get L r W HWm u Hu) as (w & Hw & Hws).
  exists s, W, w. split_and!; [done|done|done| |].
  - intros x k Hx. apply Hss in Hx as (Hb & Hk & Hwk & _).
    destruct (wm_reach L HL r W HWm u x k Hu) as (w' & j & Hw' & Hj & Hle).
    + intros ->. by apply (ord_irrefl' _ _ (vs_nodup L HL)) in Hb.
    + lia.
    + by apply sreach_is_wreach.
    + exists j. split; [congruence|done].
  - intros ->.
    assert (∀ x, before (vertices L) x u → wreach_walk L u x 1 ↔ adj L u x) as Hw1.
    { intros x Hb. split.
      - intros ([|a [|b [|]]] & Hl & Hh & Hla & Hwk & _); try done. cbn in Hh, Hla. simplify_eq. by destruct Hwk.
      - intros Ha. exists [u; x]. split_and!; [done..|]. intros y [->|Hy]%elem_of_cons; [by right|]. apply elem_of_list_singleton in Hy as ->. by left. }
    assert (∀ x, before (vertices L) x u → sreach_walk L u x 1 ↔ adj L u x) as Hs1.
    { intros x Hb. split.
      - intros ([|a [|]] & Hl & Hh & Hwk & _); try done. cbn in Hh. simplify_eq. by destruct Hwk.
      - intros Ha. exists [u]. split_and!; [done..|]. intros y Hy%elem_of_list_singleton. by left. }
    assert (∀ x k, s !! x = Some k ↔ k = 1 ∧ before (vertices L) x u ∧ adj L u x) as HS.
    { intros x k. rewrite (Hss x k). split.
      - intros (Hb & Hk & Hwk & _). assert (k = 1) as -> by lia. split_and!; [done|done|by apply Hs1].
      - intros (-> & Hb & Ha). split_and!; [done|lia|lia|]. split; [by apply Hs1|].
        intros j Hj. pose proof (sreach_walk_pos L HL u x j Hb Hj). lia. }
    split.
    + apply map_eq. intros x. apply option_eq. intros k. rewrite HS, (Hws x k). split.
      * intros (Hb & Hk & Hwk & _). destruct k as [|k].
        { exfalso. destruct Hwk as ([|a [|]] & ? & Hh & Hla & _); try done. cbn in Hh, Hla. simplify_eq.
          by apply (ord_irrefl' _ _ (vs_nodup L HL)) in Hb. }
        assert (k = 0) as -> by lia. split_and!; [done|done|by apply Hw1].
      * intros (-> & Hb & Ha). split_and!; [done|done|]. split; [by apply Hw1|]. intros j Hj. destruct j; [|lia]. exfalso.
        destruct Hj as ([|a [|]] & ? & Hh & Hla & _); try done. cbn in Hh, Hla. simplify_eq. by apply (ord_irrefl' _ _ (vs_nodup L HL)) in Hb.
    + intros x. split.
      * intros (k & Hk). by apply HS in Hk as (_ & ? & ?).
      * intros [Ha Hb]. exists 1. by apply HS.
Qed.

(** A smaller radius yields the restriction of the sets for a larger one. *)
Theorem C84_monotone (L : lgraph) (u : N) (r r' : nat) : lgraph_wf L → contains L u = true → 1 ≤ r ≤ r' → (N.of_nat r' + 1 < u32_mod)%N →
  ∃ s s' W W' w w', sreach_set L u r = Ok s ∧ sreach_set L u r' = Ok s' ∧
    wreach_sets L r = Ok W ∧ wreach_sets L r' = Ok W' ∧ W !! u = Some w ∧ W' !! u = Some w' ∧
    (∀ x k, s !! x = Some k ↔ s' !! x = Some k ∧ k ≤ r) ∧ (∀ x k, w !! x = Some k ↔ w' !! x = Some k ∧ k ≤ r).
Proof.
  intros HL Hu Hr Hr2. destruct (sreach_set_spec L HL u r Hu) as (s & Hs & Hss); [lia|lia|].
  destruct (sreach_set_spec L HL u r' Hu) as (s' & Hs' & Hss'); [lia|lia|].
  destruct (wreach_sets_spec L HL r) as (W & HW & HWm); [lia|]. destruct (wm_get L r W HWm u Hu) as (w & Hw & Hws).
  destruct (wreach_sets_spec L HL r') as (W' & HW' & HWm'); [lia|]. destruct (wm_get L r' W' HWm' u Hu) as (w' & Hw' & Hws').
  exists s, s', W, W', w, w'. split_and!; [done..| |].
  - intros x k. rewrite (Hss x k), (Hss' x k). split; [intros (? & ? & ?)|intros ((? & ? & ?) & ?)]; split_and!; try done; lia.
  - intros x k. rewrite (Hws x k), (Hws' x k). split; [intros (? & ? & ?)|intros ((? & ? & ?) & ?)]; split_and!; try done; lia.
Qed.

(** Every weakly reachable vertex is reached through a strongly reachable one. *)
Theorem C84_first_step (L : lgraph) (u : N) (r : nat) : lgraph_wf L → contains L u = true → 1 ≤ r → (N.of_nat r + 1 < u32_mod)%N →
  ∃ s W w, sreach_set L u r = Ok s ∧ wreach_sets L r = Ok W ∧ W !! u = Some w ∧
    ∀ v k, w !! v = Some k → ∃ x i, s !! x = Some i ∧
      (x = v ∧ i = k ∨ ∃ wx j, W !! x = Some wx ∧ wx !! v = Some j ∧ i + j = k).
Proof.
  intros HL Hu Hr Hr2. destruct (sreach_set_spec L HL u r Hu Hr) as (s & Hs & Hss); [lia|].
  destruct (wreach_sets_spec L HL r Hr2) as (W & HW & HWm). destruct (wm_get L r W HWm u Hu) as (w & Hw & Hws).
  exists s, W, w. split_and!; [done|done|done|]. intros v k Hk. pose proof Hk as Hk'. apply Hws in Hk' as (Hb & Hkr & Hwk & Hmin).
  destruct (wreach_first L HL u v k Hb Hwk) as (x & i & j & Hij & Hi & Hx & Hsx & Hjx).
  destruct (sreach_reach L HL u x i r s Hu Hss Hx) as (i' & Hi' & Hle); [lia|done|]. exists x, i'. split; [done|].
  pose proof Hi' as Hi2. apply Hss in Hi2 as (_ & Hi1 & Hi2 & _). apply (sreach_is_wreach L HL u x i' Hu Hx) in Hi2.
  destruct (decide (x = v)) as [->|Hne]; [left|right].
  - split; [done|]. specialize (Hmin i' Hi2). lia.
  - destruct (before_vtx L HL _ _ Hx) as [Hxv _].
    destruct (wm_reach L HL r W HWm x v j Hxv Hne) as (wx & j' & Hwx & Hj' & Hle'); [lia|done|].
    exists wx, j'. split_and!; [done|done|]. destruct (wm_entry L HL r W HWm x wx v j' Hwx Hj') as (Hvx & _).
    pose proof (proj2 HWm x wx Hwx v j') as Hsp. apply Hsp in Hj' as (_ & _ & Hwj & _).
    pose proof (Hmin _ (wreach_trans L HL u x v i' j' Hx Hvx Hi2 Hwj)). lia.
Qed.

(** Weak reachability composes: the distances satisfy the triangle inequality. *)
Theorem C84_transitive (L : lgraph) (a b : nat) : lgraph_wf L → (N.of_nat (a + b) + 1 < u32_mod)%N →
  ∃ Wa Wb W, wreach_sets L a = Ok Wa ∧ wreach_sets L b = Ok Wb ∧ wreach_sets L (a + b) = Ok W ∧
    ∀ u v x wu wv k l, Wa !! u = Some wu → wu !! v = Some k → Wb !! v = Some wv → wv !! x = Some l →
      ∃ w j, W !! u = Some w ∧ w !! x = Some j ∧ j ≤ k + l.
Proof.
  intros HL Hr. destruct (wreach_sets_spec L HL a) as (Wa & HWa & Hma); [lia|].
  destruct (wreach_sets_spec L HL b) as (Wb & HWb & Hmb); [lia|]. destruct (wreach_sets_spec L HL (a + b)) as (W & HW & Hm); [lia|].
  exists Wa, Wb, W. split_and!; [done..|]. intros u v x wu wv k l Hu Hk Hv Hl.
  destruct (wm_entry L HL a Wa Hma u wu v k Hu Hk) as (Hb1 & _ & Hvu & _). apply (proj2 Hma u wu Hu) in Hk as (_ & ? & Hw1 & _).
  destruct (wm_entry L HL b Wb Hmb v wv x l Hv Hl) as (Hb2 & _). apply (proj2 Hmb v wv Hv) in Hl as (_ & ? & Hw2 & _).
  apply (wm_reach L HL (a + b) W Hm u x (k + l) Hvu).
  - intros ->. by apply (ord_irrefl _ _ _ (vs_nodup L HL)) in Hb1.
  - lia.
  - by eapply wreach_trans.
Qed.

Lemma geo_sum s r : geo s r = sum_list_with (λ i, s ^ i) (seq 1 r).
Proof.
  assert (∀ n, s * sum_list_with (λ i, s ^ i) (seq n r) = sum_list_with (λ i, s ^ i) (seq (S n) r)) as Hm.
  { induction r as [|r IH]; intros n; [cbn; lia|]. cbn [seq sum_list_with]. rewrite Nat.mul_add_distr_l, IH. done. }
  induction r as [|r IH] in Hm |- *; [done|]. cbn [geo seq sum_list_with].
  assert (∀ n, s * sum_list_with (λ i, s ^ i) (seq n r) = sum_list_with (λ i, s ^ i) (seq (S n) r)) as Hm'.
  { clear. induction r as [|r IH]; intros n; [cbn; lia|]. cbn [seq sum_list_with]. rewrite Nat.mul_add_distr_l, IH. done. }
  rewrite IH by exact Hm'. rewrite Nat.mul_add_distr_l, Hm', Nat.pow_1_r. lia.
Qed.

(** ** C85: the sizes of the weakly reachable sets are bounded by those of the strongly reachable ones. *)
Theorem C85_sizes (L : lgraph) (r s : nat) : lgraph_wf L → 1 ≤ r → (N.of_nat r + 1 < u32_mod)%N →
  ∃ K M, sreach_sizes L r = Ok K ∧ wreach_sizes L r = Ok M ∧
    ((∀ u k, K !! u = Some k → k ≤ s) → ∀ u m, M !! u = Some m → m ≤ sum_list_with (λ i, s ^ i) (seq 1 r)).
Proof.
  intros HL Hr Hr2. destruct (sreach_sizes_spec L HL r Hr) as (K & HK & HKs); [lia|].
  destruct (C42_wreach_sizes L r HL Hr2) as (W & M & HW & HM & HWM). exists K, M. split_and!; [done|done|].
  intros Hs u m Hm. rewrite HWM in Hm. destruct (W !! u) as [w|] eqn:Hw; [|done]. cbn in Hm. injection Hm as <-.
  rewrite <- geo_sum.
  set (Ss := λ u, match sreach_set L u r with Ok m => m | _ => ∅ end).
  set (Ws := λ k, match wreach_sets L k with Ok m => m | _ => ∅ end).
  apply (wreach_size_geo L HL r s Ss Ws) with (u := u) (n := r); [| | |lia|].
  - intros x Hx y k Hb Hk Hwk. unfold Ss. destruct (sreach_set_spec L HL x r Hx Hr) as (S & HS & HSs); [lia|]. rewrite HS.
    destruct (sreach_reach L HL x y k r S Hx HSs Hb Hk Hwk) as (j & Hj & _). apply elem_of_dom. eauto.
  - intros x Hx. unfold Ss. destruct (sreach_set_spec L HL x r Hx Hr) as (S & HS & HSs); [lia|]. rewrite HS.
    apply (Hs x). apply HKs. eauto.
  - intros k Hk. unfold Ws. destruct (wreach_sets_spec L HL k) as (Wk & HWk & Hmk); [lia|]. by rewrite HWk.
  - unfold Ws. by rewrite HW.
Qed.

(** The approximation bound of C80 in terms of the sizes of the strongly reachable sets. *)
Theorem C85_domset (L : lgraph) (r s : nat) (witness : bool) (T : list N) (D : gset N) dd o (X : gset N) K :
  lgraph_wf L → 1 ≤ r → sreach_sizes L r = Ok K → (∀ u k, K !! u = Some k → k ≤ s) →
  domset_with_target L r witness T = Ok (D, dd, o) → r_dominates L r T X →
  let g := sum_list_with (λ i, s ^ i) (seq 1 r) in size D ≤ size X * ((g + 1) * (g + 1 + 4 * r * r)).
Proof.
  intros HL Hr HK Hs Hok HX g.
  destruct (decide (N.of_nat r + 1 < u32_mod)%N) as [Hr2|Hr2].
  - apply (C80_approximation L r witness T D dd o g X HL); [|done|done].
    destruct (C85_sizes L r s HL Hr Hr2) as (K' & M & HK' & HM & Hb). rewrite HK in HK'. injection HK' as <-. specialize (Hb Hs).
    destruct (C42_wreach_sizes L r HL Hr2) as (W & M' & HW & HM' & HWM). rewrite HM in HM'. injection HM' as <-.
    destruct (wreach_sets_spec L HL r Hr2) as (W' & HW' & HWm). rewrite HW in HW'. injection HW' as <-.
    intros u l Hnd Hl. destruct l as [|v0 l0] eqn:El; [cbn; lia|]. rewrite <- El in *.
    assert (vtx L u) as Hu. { destruct (Hl v0) as [Hb0 _]; [rewrite El; left|]. by apply (before_vtx L HL) in Hb0 as [_ ?]. }
    destruct (wm_get L r W HWm u Hu) as (w & Hw & Hws). specialize (Hb u (size w)). rewrite HWM, Hw in Hb. specialize (Hb eq_refl).
    etrans; [|exact Hb]. rewrite <- (size_dom w), <- (size_list_to_set (C := gset N) l Hnd). apply subseteq_size.
    intros v Hv%elem_of_list_to_set. destruct (Hl v Hv) as (Hbv & k & Hk & Hwk).
    destruct (wm_reach L HL r W HWm u v k Hu) as (w' & j & Hw' & Hj & _); [|done|done|].
    + intros ->. by apply (ord_irrefl' _ _ (vs_nodup L HL)) in Hbv.
    + apply elem_of_dom. exists j. congruence.
  - unfold domset_with_target in Hok. destruct (g_is_empty L || bool_decide ((collect_set T : gset N) = ∅)).
    { injection Hok as <- _ _. rewrite size_empty. lia. }
    apply bind_ok in Hok as ([] & Ha & _). exfalso. apply Hr2.
    assert (radius_ok r) as Hr'.
    { unfold radius_ok. destruct (N.of_nat (2 * r) * N.of_nat (2 * r) <? u32_mod)%N eqn:E; [by apply N.ltb_lt|done]. }
    pose proof (radius_small r Hr'). lia.
Qed.

End with_iter.

(** ** Examples: a cycle on twelve vertices with a chord, in an order that mixes both ends. *)
Local Existing Instance std_iter.
Definition ex_rel_edges : list (N * N) :=
  [(0, 1); (1, 2); (2, 3); (3, 4); (4, 5); (5, 6); (6, 7); (7, 8); (8, 9); (9, 10); (10, 11); (11, 0); (3, 9)]%N.
Definition ex_rel_order : list N := [3; 0; 6; 9; 1; 11; 4; 8; 2; 10; 5; 7]%N.
Definition ex_rel : lgraph := ex_lin ex_rel_edges ex_rel_order.
Example ex_C84_hyps : lgraph_wf ex_rel ∧ contains ex_rel 7 = true.
Proof.
  destruct (ex_lin_spec ex_rel_edges ex_rel_order) as (_ & Hwf & _); [vm_compute; reflexivity|].
  split; [exact Hwf|vm_compute; reflexivity].
Qed.
Example ex_C84 :
  (s ← sreach_set ex_rel 5 3; W ← wreach_sets ex_rel 3; w ← unwrap (W !! 5%N); Ok (map_to_list s, map_to_list w)) = Ok ([(4%N, 1); (6%N, 1)], [(3%N, 2); (4%N, 1); (6%N, 1)]) ∧
  (K ← sreach_sizes ex_rel 2; M ← wreach_sizes ex_rel 2; Ok (map_to_list K, map_to_list M)) =
  Ok ([(0%N, 0); (1%N, 2); (3%N, 0); (7%N, 2); (11%N, 2); (5%N, 2); (9%N, 1); (2%N, 2); (4%N, 2); (8%N, 2); (6%N, 0); (10%N, 2)],
      [(0%N, 0); (1%N, 2); (3%N, 0); (7%N, 3); (11%N, 2); (5%N, 3); (9%N, 1); (2%N, 3); (4%N, 2); (8%N, 3); (6%N, 0); (10%N, 4)]) ∧
  sum_list_with (λ i, 2 ^ i) (seq 1 2) = 6.
Proof. vm_compute. done. Qed.
(** The hypotheses of C85_domset are met with s = 2 and a dominating set of three vertices. *)
Example ex_C85 :
  match sreach_sizes ex_rel 2 with Ok K => forallb (λ p : N * nat, p.2 <=? 2) (map_to_list K) = true | _ => False end ∧
  ∃ D dd, domset ex_rel 2 false = Ok (D, dd, None) ∧ size D = 3 ∧ r_dominates ex_rel 2 (vertices ex_rel) D.
Proof.
  split; [vm_compute; reflexivity|]. destruct ex_C84_hyps as [Hwf _].
  destruct (C46_domset ex_rel 2 Hwf) as (D & dd & Hok & HD & Hdom); [vm_compute; reflexivity|].
  exists D, dd. split; [exact Hok|]. split; [|split; [exact HD|intros v _; apply Hdom]].
  assert (match domset ex_rel 2 false with Ok (D, _, _) => size D = 3 | _ => False end) as Hs by (vm_compute; reflexivity).
  rewrite Hok in Hs. exact Hs.
Qed.

Print Assumptions C84_strong_is_weak.
Print Assumptions C84_monotone.
Print Assumptions C84_first_step.
Print Assumptions C84_transitive.
Print Assumptions C85_sizes.
Print Assumptions C85_domset.
