(** Property theorem C91: laws relating the graph operations to each other.  Equations between
    results are equalities of the returned states (or of panics); [same_graph] compares a returned
    graph with an arbitrary Graph implementation. *)
From Verif Require Import Base Spec M_Graph M_Iterators M_EditGraph M_Algorithms M_Operations S_Graph
  P_EditGraph P_EditGraph2 T_EditGraph T_Operations T_Algorithms T_Determin2 Examples.

Lemma same_of_iff (G K : graph) : (∀ u, contains G u = true ↔ contains K u = true) →
  (∀ u v, adjacent G u v = true ↔ adjacent K u v = true) → same_graph G K.
Proof. intros HV HE. split; intros; by apply eq_true_iff_eq. Qed.

Section laws.
Context {Hi : HashIter}.

(** ** C91: union *)
Theorem C91_merge (G K M : graph) : graph_wf G → graph_wf K → graph_wf M →
  merge_graphs G K = merge_graphs K G ∧
  (∃ h, merge_graphs G G = Ok h ∧ same_graph (eg_graph h) G) ∧
  ∃ a b h, merge_graphs G K = Ok a ∧ merge_graphs K M = Ok b ∧
    merge_graphs (eg_graph a) M = Ok h ∧ merge_graphs G (eg_graph b) = Ok h.
Proof.
  intros HG HK HM.
  destruct (C28_merge G K HG HK) as (a & Ea & Ra & Va & Aa), (C28_merge K G HK HG) as (a' & Ea' & Ra' & Va' & Aa').
  destruct (C28_merge G G HG HG) as (d & Ed & Rd & Vd & Ad), (C28_merge K M HK HM) as (b & Eb & Rb & Vb & Ab).
  destruct (C28_merge _ _ (C10_reachable_wf a Ra) HM) as (h & Eh & Rh & Vh & Ah).
  destruct (C28_merge _ _ HG (C10_reachable_wf b Rb)) as (h' & Eh' & Rh' & Vh' & Ah').
  cbn in Vh, Ah, Vh', Ah'. split_and!.
  - rewrite Ea, Ea'. f_equal. apply (reachable_same Hi Hi); [done|done| |].
    + intros x. rewrite Va, Va'. tauto.
    + intros x y. rewrite Aa, Aa'. tauto.
  - exists d. split; [done|]. apply same_of_iff.
    + intros x. cbn. rewrite Vd. tauto.
    + intros x y. cbn. rewrite Ad. tauto.
  - exists a, b, h. split_and!; [done..|]. rewrite Eh'. f_equal. apply (reachable_same Hi Hi); [done|done| |].
    + intros x. rewrite Vh, Vh', Va, Vb. tauto.
    + intros x y. rewrite Ah, Ah', Aa, Ab. tauto.
Qed.

(** ** C91: intersection, and absorption *)
Theorem C91_intersect (G K M : graph) : graph_wf G → graph_wf K → graph_wf M →
  intersect_graphs G K = intersect_graphs K G ∧
  (∃ h, intersect_graphs G G = Ok h ∧ same_graph (eg_graph h) G) ∧
  (∃ a b h, intersect_graphs G K = Ok a ∧ intersect_graphs K M = Ok b ∧
    intersect_graphs (eg_graph a) M = Ok h ∧ intersect_graphs G (eg_graph b) = Ok h) ∧
  (∃ a h, merge_graphs G K = Ok a ∧ intersect_graphs G (eg_graph a) = Ok h ∧ same_graph (eg_graph h) G) ∧
  (∃ a h, intersect_graphs G K = Ok a ∧ merge_graphs G (eg_graph a) = Ok h ∧ same_graph (eg_graph h) G) ∧
  ∃ a b c h, merge_graphs K M = Ok a ∧ intersect_graphs G (eg_graph a) = Ok h ∧
    intersect_graphs G K = Ok b ∧ intersect_graphs G M = Ok c ∧ merge_graphs (eg_graph b) (eg_graph c) = Ok h.
Proof.
  intros HG HK HM.
  destruct (C29_intersect G K HG HK) as (a & Ea & Ra & Va & Aa), (C29_intersect K G HK HG) as (a' & Ea' & Ra' & Va' & Aa').
  destruct (C29_intersect G G HG HG) as (d & Ed & Rd & Vd & Ad), (C29_intersect K M HK HM) as (b & Eb & Rb & Vb & Ab).
  destruct (C29_intersect _ _ (C10_reachable_wf a Ra) HM) as (h & Eh & Rh & Vh & Ah).
  destruct (C29_intersect _ _ HG (C10_reachable_wf b Rb)) as (h' & Eh' & Rh' & Vh' & Ah').
  destruct (C28_merge G K HG HK) as (p & Ep & Rp & Vp & Ap), (C28_merge K M HK HM) as (q & Eq & Rq & Vq & Aq).
  destruct (C29_intersect _ _ HG (C10_reachable_wf p Rp)) as (p' & Ep' & Rp' & Vp' & Ap').
  destruct (C28_merge _ _ HG (C10_reachable_wf a Ra)) as (r & Er & Rr & Vr & Ar).
  destruct (C29_intersect _ _ HG (C10_reachable_wf q Rq)) as (q' & Eq' & Rq' & Vq' & Aq').
  destruct (C29_intersect G M HG HM) as (e & Ee & Re & Ve & Ae).
  destruct (C28_merge _ _ (C10_reachable_wf a Ra) (C10_reachable_wf e Re)) as (t & Et & Rt & Vt & At).
  cbn in Vh, Ah, Vh', Ah', Vp', Ap', Vr, Ar, Vq', Aq', Vt, At. split_and!.
  - rewrite Ea, Ea'. f_equal. apply (reachable_same Hi Hi); [done|done| |].
    + intros x. rewrite Va, Va'. tauto.
    + intros x y. rewrite Aa, Aa'. tauto.
  - exists d. split; [done|]. apply same_of_iff.
    + intros x. cbn. rewrite Vd. tauto.
    + intros x y. cbn. rewrite Ad. tauto.
  - exists a, b, h. split_and!; [done..|]. rewrite Eh'. f_equal. apply (reachable_same Hi Hi); [done|done| |].
    + intros x. rewrite Vh, Vh', Va, Vb. tauto.
    + intros x y. rewrite Ah, Ah', Aa, Ab. tauto.
  - exists p, p'. split_and!; [done..|]. apply same_of_iff.
    + intros x. cbn. rewrite Vp', Vp. tauto.
    + intros x y. cbn. rewrite Ap', Ap. tauto.
  - exists a, r. split_and!; [done..|]. apply same_of_iff.
    + intros x. cbn. rewrite Vr, Va. tauto.
    + intros x y. cbn. rewrite Ar, Aa. tauto.
  - exists q, a, e, q'. split_and!; [done..|]. rewrite Et. f_equal. apply (reachable_same Hi Hi); [done|done| |].
    + intros x. rewrite Vt, Vq', Vq, Va, Ve. tauto.
    + intros x y. rewrite At, Aq', Aq, Aa, Ae. tauto.
Qed.

(** ** C91: complement of unions and intersections on one vertex set (De Morgan) *)
Theorem C91_de_morgan (G K : graph) : graph_wf G → graph_wf K → (∀ u, contains G u = contains K u) →
  ∃ g k m i h1 h2, invert G = Ok g ∧ invert K = Ok k ∧ merge_graphs G K = Ok m ∧ intersect_graphs G K = Ok i ∧
    invert (eg_graph m) = Ok h1 ∧ intersect_graphs (eg_graph g) (eg_graph k) = Ok h1 ∧
    invert (eg_graph i) = Ok h2 ∧ merge_graphs (eg_graph g) (eg_graph k) = Ok h2.
Proof.
  intros HG HK HV.
  destruct (C27_invert G HG) as (g & Eg & Rg & Vg & Ag), (C27_invert K HK) as (k & Ek & Rk & Vk & Ak).
  destruct (C28_merge G K HG HK) as (m & Em & Rm & Vm & Am), (C29_intersect G K HG HK) as (i & Ei & Ri & Vi & Ai).
  destruct (C27_invert _ (C10_reachable_wf m Rm)) as (h1 & Eh1 & Rh1 & Vh1 & Ah1).
  destruct (C29_intersect _ _ (C10_reachable_wf g Rg) (C10_reachable_wf k Rk)) as (h1' & Eh1' & Rh1' & Vh1' & Ah1').
  destruct (C27_invert _ (C10_reachable_wf i Ri)) as (h2 & Eh2 & Rh2 & Vh2 & Ah2).
  destruct (C28_merge _ _ (C10_reachable_wf g Rg) (C10_reachable_wf k Rk)) as (h2' & Eh2' & Rh2' & Vh2' & Ah2').
  cbn in Vh1, Ah1, Vh1', Ah1', Vh2, Ah2, Vh2', Ah2'.
  assert (∀ x, contains K x = true ↔ contains G x = true) as HVk by (intros x; by rewrite HV).
  assert (h1 = h1') as ->.
  { apply (reachable_same Hi Hi); [done|done| |].
    - intros x. rewrite Vh1, Vh1', Vm, Vg, Vk. rewrite !HVk. tauto.
    - intros x y. rewrite Ah1, Ah1', Ag, Ak, !Vm, !HVk, <- !not_true_iff_false, Am. tauto. }
  assert (h2 = h2') as ->.
  { apply (reachable_same Hi Hi); [done|done| |].
    - intros x. rewrite Vh2, Vh2', Vi, Vg, Vk. rewrite !HVk. tauto.
    - intros x y. rewrite Ah2, Ah2', Ag, Ak, !Vi, !HVk, <- !not_true_iff_false, Ai.
      destruct (decide (adjacent G x y = true)); tauto. }
  by exists g, k, m, i, h1', h2'.
Qed.

(** ** C91: comparison is a partial order with union and intersection as bounds *)
Definition flip_rel (r : subgraph_rel) : subgraph_rel :=
  match r with RelSub => RelSup | RelSup => RelSub | RelEq => RelEq | RelIncomp => RelIncomp end.
Definition below (G K : graph) : Prop := compare_subgraph G K = Ok RelSub ∨ compare_subgraph G K = Ok RelEq.

Lemma below_part (G K : graph) : graph_wf G → graph_wf K → below G K ↔ part_of G K.
Proof.
  intros HG HK. destruct (C33_compare G K HG HK) as (r & Er & A1 & A2 & A3 & A4). unfold below. rewrite Er.
  fold (part_of G K) (part_of K G) in A1, A2, A3, A4. split.
  - intros [[= ->]|[= ->]]; [by apply A2|by apply A1].
  - intros Hp. destruct r; [by left|by right| |]; exfalso; [by apply (proj1 (proj1 A3 eq_refl))|by apply (proj1 (proj1 A4 eq_refl))].
Qed.
Theorem C91_compare (G K M : graph) : graph_wf G → graph_wf K → graph_wf M →
  compare_subgraph G G = Ok RelEq ∧
  (∃ r, compare_subgraph G K = Ok r ∧ compare_subgraph K G = Ok (flip_rel r)) ∧
  (compare_subgraph G K = Ok RelEq ↔ same_graph G K) ∧
  (below G K → below K M → below G M) ∧
  (∃ h, merge_graphs G K = Ok h ∧ below G (eg_graph h) ∧ (below G M → below K M → below (eg_graph h) M)) ∧
  (∃ h, intersect_graphs G K = Ok h ∧ below (eg_graph h) G ∧ (below M G → below M K → below M (eg_graph h))) ∧
  (below G K → ∃ h, merge_graphs G K = Ok h ∧ same_graph (eg_graph h) K).
Proof.
  intros HG HK HM.
  destruct (C33_compare G G HG HG) as (r0 & E0 & B1 & B2 & B3 & B4).
  destruct (C33_compare G K HG HK) as (r & Er & A1 & A2 & A3 & A4), (C33_compare K G HK HG) as (r' & Er' & D1 & D2 & D3 & D4).
  fold (part_of G K) (part_of K G) in A1, A2, A3, A4, D1, D2, D3, D4. fold (part_of G G) in B1, B2, B3, B4.
  assert (part_of G G) as Hrefl by done.
  destruct (C28_merge G K HG HK) as (m & Em & Rm & Vm & Am), (C29_intersect G K HG HK) as (i & Ei & Ri & Vi & Ai).
  split_and!.
  - rewrite E0. f_equal. by apply B1.
  - exists r. split; [done|]. rewrite Er'. f_equal. clear -A1 A2 A3 A4 D1 D2 D3 D4.
    generalize dependent (part_of G K). generalize dependent (part_of K G). intros P Q. intros. destruct r, r'; try done; exfalso; naive_solver.
  - rewrite Er. split.
    + intros [= ->]. destruct (proj1 A1 eq_refl) as [[V1 E1] [V2 E2]]. apply same_of_iff; split; auto.
    + intros [HV HE]. f_equal. apply A1. split; split; intros; congruence.
  - rewrite !below_part by done. intros [V1 E1] [V2 E2]. split; auto.
  - exists m. pose proof (C10_reachable_wf m Rm) as Hm. split_and!; [done|rewrite below_part by done|rewrite !below_part by done].
    + split; intros; cbn; [apply Vm|apply Am]; auto.
    + intros [V1 E1] [V2 E2]. split; cbn; [intros u [?|?]%Vm; auto|intros u v [?|?]%Am; auto].
  - exists i. pose proof (C10_reachable_wf i Ri) as Hii. split_and!; [done|rewrite below_part by done|rewrite !below_part by done].
    + split; cbn; [by intros u [? ?]%Vi|by intros u v [? ?]%Ai].
    + intros [V1 E1] [V2 E2]. split; cbn; intros; [apply Vi|apply Ai]; auto.
  - rewrite below_part by done. intros [V1 E1]. exists m. split; [done|]. apply same_of_iff.
    + intros u. cbn. rewrite Vm. naive_solver.
    + intros u v. cbn. rewrite Am. naive_solver.
Qed.

(** ** C91: induced subgraphs *)
Theorem C91_subgraph (G : graph) (X Y : list N) : graph_wf G → (∀ v, v ∈ X → contains G v = true) → (∀ v, v ∈ Y → v ∈ X) →
  (∃ h, subgraph G (vertices G) = Ok h ∧ same_graph (eg_graph h) G) ∧
  (∃ a, subgraph G X = Ok a ∧ subgraph (eg_graph a) Y = subgraph G Y) ∧
  (∃ a b h, subgraph G X = Ok a ∧ invert G = Ok b ∧ invert (eg_graph a) = Ok h ∧ subgraph (eg_graph b) X = Ok h) ∧
  ∃ a b h, subgraph G X = Ok a ∧ subgraph G Y = Ok b ∧ intersect_graphs (eg_graph a) (eg_graph b) = Ok h ∧ h = b.
Proof.
  intros HG HX HY. assert (∀ v, v ∈ Y → contains G v = true) as HY' by auto.
  destruct (C10_subgraph G (vertices G) HG) as (h & Eh & Rh & Vh & Ah); [intros v; apply (wf_vertices _ HG)|].
  destruct (C10_subgraph G X HG HX) as (a & Ea & Ra & Va & Aa), (C10_subgraph G Y HG HY') as (b & Eb & Rb & Vb & Ab).
  pose proof (C10_reachable_wf a Ra) as Hwa.
  destruct (C10_subgraph (eg_graph a) Y Hwa) as (c & Ec & Rc & Vc & Ac); [intros v Hv; cbn; apply Va; auto|].
  destruct (C27_invert G HG) as (i & Ei & Ri & Vi & Ai), (C27_invert _ Hwa) as (j & Ej & Rj & Vj & Aj).
  destruct (C10_subgraph (eg_graph i) X (C10_reachable_wf i Ri)) as (k & Ek & Rk & Vk & Ak); [intros v Hv; cbn; apply Vi; auto|].
  destruct (C29_intersect _ _ Hwa (C10_reachable_wf b Rb)) as (l & El & Rl & Vl & Al).
  cbn in Ac, Vj, Aj, Ak, Vl, Al. split_and!.
  - exists h. split; [done|]. apply same_of_iff.
    + intros u. cbn. rewrite Vh. apply (wf_vertices _ HG).
    + intros u v. cbn. rewrite Ah, !(wf_vertices _ HG). split; [by intros (_ & _ & ?)|]. intros Huv. split_and!; [| |done].
      * by eapply (wf_adj_vtx _ HG).
      * by eapply (wf_adj_vtx _ HG), (wf_adj_sym _ HG).
  - exists a. split; [done|]. rewrite Ec, Eb. f_equal. apply (reachable_same Hi Hi); [done|done| |].
    + intros x. by rewrite Vc, Vb.
    + intros x y. rewrite Ac, Ab, Aa. naive_solver.
  - exists a, i, j. split_and!; [done..|]. rewrite Ek. f_equal. apply (reachable_same Hi Hi); [done|done| |].
    + intros x. by rewrite Vk, Vj, Va.
    + intros x y. rewrite Ak, Ai, Aj, !Va, <- !not_true_iff_false, Aa. pose proof (HX x). pose proof (HX y). tauto.
  - exists a, b, l. split_and!; [done..|]. apply (reachable_same Hi Hi); [done|done| |].
    + intros x. rewrite Vl, Va, Vb. naive_solver.
    + intros x y. rewrite Al, Aa, Ab. naive_solver.
Qed.

(** ** C91: neighbourhoods *)
Theorem C91_neighbourhoods (G : graph) (X : list N) (r s : nat) : graph_wf G → (∀ v, v ∈ X → contains G v = true) →
  (∃ A, neighbourhood G X = Ok A ∧ closed_neighbourhood G X = Ok (list_to_set X ∪ A) ∧ (list_to_set X : gset N) ## A) ∧
  r_neighbourhood G X 0 = Ok (list_to_set X) ∧
  r_neighbourhood G X 1 = closed_neighbourhood G X ∧
  (∃ A B, r_neighbourhood G X r = Ok A ∧ r_neighbourhood G X (r + s) = Ok B ∧ A ⊆ B ∧
     ∀ l, (∀ v, v ∈ l ↔ v ∈ A) → r_neighbourhood G l s = Ok B).
Proof.
  intros HG HX.
  destruct (C11_neighbourhood G X HG HX) as (A & EA & HA), (C11_closed_neighbourhood G X HG HX) as (C & EC & HC).
  destruct (C12_r_neighbourhood G X 0 HG HX) as (R0 & E0 & H0), (C12_r_neighbourhood G X 1 HG HX) as (R1 & E1 & H1).
  destruct (C12_r_neighbourhood G X r HG HX) as (Rr & Er & Hr), (C12_r_neighbourhood G X (r + s) HG HX) as (Rs & Es & Hs).
  split_and!.
  - exists A. split_and!; [done| |].
    + rewrite EC. f_equal. apply set_eq. intros u. rewrite HC, elem_of_union, elem_of_list_to_set, HA.
      destruct (decide (u ∈ X)); naive_solver.
    + intros u. rewrite elem_of_list_to_set, HA. tauto.
  - rewrite E0. f_equal. apply set_eq. intros u. rewrite H0, elem_of_list_to_set. split.
    + intros (x & n & Hx & Hn & Hw). assert (n = 0) as -> by lia. by inversion Hw; subst.
    + intros Hu. exists u, 0. split_and!; [done|lia|constructor].
  - rewrite E1, EC. f_equal. apply set_eq. intros u. rewrite H1, HC. split.
    + intros (x & n & Hx & Hn & Hw). destruct n as [|[|n]]; [| |lia].
      * inversion Hw; subst. by left.
      * right. exists x. split; [done|]. by apply nsteps_once_inv in Hw.
    + intros [Hu|(v & Hv & Hvu)].
      * exists u, 0. split_and!; [done|lia|constructor].
      * exists v, 1. split_and!; [done|lia|by apply nsteps_once].
  - exists Rr, Rs. split_and!; [done..| |].
    + intros u. rewrite Hr, Hs. intros (x & n & ? & ? & ?). exists x, n. split_and!; [done|lia|done].
    + intros l Hl. assert (∀ v, v ∈ Rr → contains G v = true) as Hv.
      { intros v (x & n & Hx & _ & Hw)%Hr. revert Hw. apply HX in Hx. clear -HG Hx. revert x Hx.
        induction n as [|n IH]; intros x Hx Hw; inversion Hw; subst; [done|]. eapply IH; [|done].
        by eapply (wf_adj_vtx _ HG), (wf_adj_sym _ HG). }
      destruct (C12_r_neighbourhood G l s HG) as (Rl & El & HRl); [intros v Hv'%Hl; auto|]. rewrite El. f_equal. apply set_eq. intros u.
      rewrite HRl, Hs. split.
      * intros (x & n & Hx%Hl%Hr & Hn & Hw). destruct Hx as (y & m & Hy & Hm & Hw'). exists y, (m + n). split_and!; [done|lia|by eapply nsteps_trans].
      * intros (x & n & Hx & Hn & Hw). destruct (decide (n ≤ r)) as [Hnr|Hnr].
        -- exists u, 0. split_and!; [|lia|constructor]. apply Hl, Hr. exists x, n. done.
        -- replace n with (r + (n - r)) in Hw by lia. apply nsteps_add_inv in Hw as (y & Hxy & Hyu).
           exists y, (n - r). split_and!; [|lia|done]. apply Hl, Hr. exists x, r. done.
Qed.

(** ** C91: normalize is idempotent *)
Theorem C91_normalize (g : editgraph) : eg_reachable g →
  ∃ h m m', eg_normalize g = Ok (h, m) ∧ eg_normalize h = Ok (h, m') ∧ ∀ i v, m' !! i = Some v → v = i.
Proof.
  intros Hg. destruct (C14_normalize g Hg) as (h & m & En & Rh & Hm & Hgm & Hmono & Hh & Ha & He).
  destruct (C14_normalize h Rh) as (k & m' & Ek & Rk & Hm' & Hhm & Hmono' & Hk & Ha' & He').
  assert (eg_num_vertices h = eg_num_vertices g) as Hnn.
  { pose proof (C10_reachable_wf h Rh) as Hw. pose proof (wf_num_vertices _ Hw) as Hnv. cbn [num_vertices eg_graph] in Hnv. rewrite Hnv.
    assert (vertices (eg_graph h) ≡ₚ nrange 0 (eg_num_vertices g)) as ->; [|by rewrite nrange_length].
    apply NoDup_Permutation; [apply (wf_vertices_nodup _ Hw)|apply NoDup_nrange|]. intros x. rewrite (wf_vertices _ Hw). unfold vtx. cbn [contains eg_graph].
    rewrite Hh, elem_of_nrange. lia. }
  rewrite Hnn in Hm', Hk. set (n := eg_num_vertices g) in *.
  assert (∀ k i v, N.to_nat i = k → m' !! i = Some v → (i <= v)%N) as Hge.
  { intros q. induction q as [|q IH]; intros i v Hiq Hv; [lia|].
    destruct (proj2 (Hm' (i - 1)%N)) as [w Hw]; [assert (is_Some (m' !! i)) as Hs by eauto; apply Hm' in Hs; lia|].
    pose proof (IH (i - 1)%N w ltac:(lia) Hw). pose proof (Hmono' (i - 1)%N i w v Hw Hv ltac:(lia)). lia. }
  assert (∀ k i v, n - N.to_nat i = k → m' !! i = Some v → (v <= i)%N) as Hle.
  { intros q. induction q as [|q IH]; intros i v Hiq Hv.
    - assert (is_Some (m' !! i)) as Hs by eauto. apply Hm' in Hs. lia.
    - assert (v < N.of_nat n)%N as Hvn by (apply Hh, Hhm; eauto). destruct (decide (i + 1 < N.of_nat n)%N) as [Hlt|Hge'].
      + apply Hm' in Hlt as [w Hw]. pose proof (IH (i + 1)%N w ltac:(lia) Hw). pose proof (Hmono' i (i + 1)%N v w Hv Hw ltac:(lia)). lia.
      + lia. }
  assert (∀ i v, m' !! i = Some v → v = i) as Hid.
  { intros i v Hv. pose proof (Hge _ i v eq_refl Hv). pose proof (Hle _ i v eq_refl Hv). lia. }
  assert (k = h) as ->; [|by exists h, m, m']. apply (reachable_same Hi Hi); [done|done| |].
  - intros x. by rewrite Hk, Hh.
  - intros x y. destruct (decide (x < N.of_nat n)%N) as [Hx|Hx], (decide (y < N.of_nat n)%N) as [Hy|Hy].
    + apply Hm' in Hx as [u Hu], Hy as [v Hv]. rewrite (Ha' _ _ _ _ Hu Hv). by rewrite (Hid _ _ Hu), (Hid _ _ Hv).
    + pose proof (C10_reachable_wf k Rk) as W1. pose proof (C10_reachable_wf h Rh) as W2.
      split; intros E; exfalso; apply Hy; [apply Hk, (wf_adj_vtx _ W1 y x), (wf_adj_sym _ W1), E|apply Hh, (wf_adj_vtx _ W2 y x), (wf_adj_sym _ W2), E].
    + pose proof (C10_reachable_wf k Rk) as W1. pose proof (C10_reachable_wf h Rh) as W2.
      split; intros E; exfalso; apply Hx; [apply Hk, (wf_adj_vtx _ W1 x y), E|apply Hh, (wf_adj_vtx _ W2 x y), E].
    + pose proof (C10_reachable_wf k Rk) as W1. pose proof (C10_reachable_wf h Rh) as W2.
      split; intros E; exfalso; apply Hx; [apply Hk, (wf_adj_vtx _ W1 x y), E|apply Hh, (wf_adj_vtx _ W2 x y), E].
Qed.

(** ** C91: bulk removals *)
Theorem C91_removals (g : editgraph) : eg_reachable g →
  (∃ h k, eg_remove_loops g = Ok (h, k) ∧ eg_remove_loops h = Ok (h, 0)) ∧
  (∃ h k, eg_remove_isolates g = Ok (h, k) ∧ eg_remove_isolates h = Ok (h, 0)).
Proof.
  intros Hg. destruct (C08_remove_loops g Hg) as (h & k & Eh & Rh & Vh & Ah & _), (C08_remove_isolates g Hg) as (i & j & Ei & Ri & Vi & Ai & _).
  destruct (C08_remove_loops h Rh) as (h' & k' & Eh' & Rh' & Vh' & Ah' & X & HX & ->), (C08_remove_isolates i Ri) as (i' & j' & Ei' & Ri' & Vi' & Ai' & Y & HY & ->).
  split.
  - exists h, k. split; [done|]. rewrite Eh'. f_equal. f_equal.
    + apply (reachable_same Hi Hi); [done|done|done|]. intros x y. rewrite Ah', Ah. tauto.
    + apply size_empty_iff. apply elem_of_equiv_empty. intros x Hx%HX. apply Ah in Hx. tauto.
  - exists i, j. split; [done|]. rewrite Ei'. f_equal. f_equal.
    + apply (reachable_same Hi Hi); [done|done| |done]. intros x. rewrite Vi'. split; [tauto|]. intros Hx. split; [done|].
      apply Vi in Hx as [_ [y Hy]]. exists y. by apply Ai.
    + apply size_empty_iff. apply elem_of_equiv_empty. intros x [Hx1 Hx2]%HY. apply Vi in Hx1 as [_ [y Hy]]. apply (Hx2 y). by apply Ai.
Qed.

End laws.

(** ** Cases meeting the hypotheses: three overlapping graphs with a loop, a triangle and an isolated vertex *)
Local Existing Instance std_iter.
Definition C91_exG : editgraph := ex_edit [(0, 1); (1, 2); (2, 0); (2, 3); (5, 5)]%N.
Definition C91_exK : editgraph := ex_edit [(0, 1); (2, 3); (3, 5); (5, 5)]%N.
Definition C91_exM : editgraph := ex_edit [(1, 2); (3, 7)]%N.

Lemma C91_ex_wf : graph_wf (eg_graph C91_exG) ∧ graph_wf (eg_graph C91_exK) ∧ graph_wf (eg_graph C91_exM).
Proof. split_and!; apply ex_edit_spec. Qed.
Lemma C91_ex_vertices u : contains (eg_graph C91_exG) u = contains (eg_graph C91_exK) u.
Proof.
  apply eq_true_iff_eq. etransitivity; [symmetry; apply (wf_vertices _ (proj1 C91_ex_wf))|].
  etransitivity; [|apply (wf_vertices _ (proj1 (proj2 C91_ex_wf)))].
  assert (vertices (eg_graph C91_exG) ≡ₚ vertices (eg_graph C91_exK)) as Hp
    by (apply (bool_decide_unpack _); vm_compute; exact I). by rewrite Hp.
Qed.
Example C91_ex_results :
  compare_subgraph (eg_graph C91_exG) (eg_graph C91_exK) = Ok RelIncomp ∧
  match merge_graphs (eg_graph C91_exG) (eg_graph C91_exM), intersect_graphs (eg_graph C91_exG) (eg_graph C91_exK) with
  | Ok a, Ok b => eg_num_edges a = 6 ∧ eg_num_edges b = 3 ∧
      compare_subgraph (eg_graph b) (eg_graph C91_exG) = Ok RelSub ∧
      compare_subgraph (eg_graph a) (eg_graph C91_exM) = Ok RelSup
  | _, _ => False
  end.
Proof. vm_compute. split_and!; reflexivity. Qed.
Example C91_ex_subgraph :
  (∀ v, v ∈ [0; 1; 2]%N → contains (eg_graph C91_exG) v = true) ∧ (∀ v, v ∈ [0; 2]%N → v ∈ [0; 1; 2]%N) ∧
  match subgraph (eg_graph C91_exG) [0; 1; 2]%N with Ok a => eg_num_edges a = 3 | _ => False end.
Proof. split_and!; [|set_solver|vm_compute; reflexivity]. apply Forall_forall. repeat constructor. Qed.
Example C91_ex_removals : eg_reachable C91_exG ∧
  match eg_remove_loops C91_exG with Ok (h, k) => k = 1 ∧ match eg_remove_isolates h with Ok (_, j) => j = 1 | _ => False end | _ => False end ∧
  match eg_normalize C91_exG with Ok (h, m) => m !! 4%N = Some 5%N ∧ eg_num_vertices h = 5 | _ => False end.
Proof.
  split; [|vm_compute; split_and!; reflexivity]. unfold C91_exG, ex_edit.
  destruct (C01_editgraph_refines (ex_ops_of [(0, 1); (1, 2); (2, 0); (2, 3); (5, 5)]%N)) as (h & Hh & _). rewrite Hh. by eexists _, _.
Qed.

Print Assumptions C91_merge.
Print Assumptions C91_intersect.
Print Assumptions C91_de_morgan.
Print Assumptions C91_compare.
Print Assumptions C91_subgraph.
Print Assumptions C91_neighbourhoods.
Print Assumptions C91_normalize.
Print Assumptions C91_removals.
