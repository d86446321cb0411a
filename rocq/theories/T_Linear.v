(** Property theorems C40-C42, C44 and C45: reachability, maximal cliques and greedy colouring in
    linear graphs.  Each group is followed by a concrete case meeting the hypotheses. *)
From Verif Require Import Base Spec M_Graph M_Iterators M_EditGraph M_OrdGraph M_Linear S_Graph S_Linear S_Reach S_Cliques
  P_Graph P_OrdGraph P_OrdGraph2 P_DegenGraph P_Linear P_Linear2 P_Cliques T_OrdGraph Examples.

Section with_iter.
Context `{HI : HashIter}.

(** ** C40 *)
Theorem C40_right_bfs (L : lgraph) (root : N) (dist : nat) : lgraph_wf L → contains L root = true →
  (N.of_nat dist + 1 < u32_mod)%N →
  ∃ ls, right_bfs L root dist = Ok ls ∧ length ls = S dist ∧ head ls = Some {[root]} ∧
    ∀ d X, ls !! d = Some X → ∀ v, v ∈ X ↔ is_dist (right_adj L root) d root v.
Proof.
  intros HL Hr Hd. destruct (right_bfs_spec L HL root dist Hr Hd) as (ls & Hls & Hlen & Hl). exists ls.
  split_and!; [done|done| |done]. destruct ls as [|X ls]; [done|]. cbn. f_equal. apply set_eq. intros v.
  rewrite (Hl 0 X eq_refl), elem_of_singleton. split.
  - intros [Hn _]. by inversion Hn.
  - intros ->. split; [constructor|lia].
Qed.
Theorem C40_not_a_vertex_panics (L : lgraph) (root : N) (dist : nat) : lgraph_wf L → contains L root = false →
  right_bfs L root dist = Panic.
Proof.
  intros HL Hr. unfold right_bfs. rewrite (lwf_index_panic L HL); [done|]. unfold vtx. by rewrite Hr.
Qed.

(** ** C41 *)
Theorem C41_sreach_set (L : lgraph) (u : N) (r : nat) : lgraph_wf L → contains L u = true → 1 ≤ r → (N.of_nat r < u32_mod)%N →
  ∃ s, sreach_set L u r = Ok s ∧ sreach_spec L u r s.
Proof. intros HL. apply (sreach_set_spec L HL). Qed.
Theorem C41_sreach_sets_sizes (L : lgraph) (r : nat) : lgraph_wf L → 1 ≤ r → (N.of_nat r < u32_mod)%N →
  ∃ m k, sreach_sets L r = Ok m ∧ sreach_sizes L r = Ok k ∧
    (∀ u, contains L u = true → ∃ s, m !! u = Some s ∧ k !! u = Some (size s) ∧ sreach_spec L u r s) ∧
    (∀ u, contains L u = false → m !! u = None ∧ k !! u = None).
Proof.
  intros HL Hr Hr2. destruct (sreach_sets_spec L HL r Hr Hr2) as (m & Hm & Hms).
  destruct (sreach_sizes_spec L HL r Hr Hr2) as (k & Hk & Hks). exists m, k. split_and!; [done|done| |].
  - intros u Hu. destruct (sreach_set_spec L HL u r Hu Hr Hr2) as (s & Hs & Hspec). exists s.
    split_and!; [by apply Hms|apply Hks; eauto|done].
  - intros u Hu. split; apply eq_None_not_Some; intros [x Hx].
    + apply Hms in Hx as [Hx _]. unfold vtx in Hx. congruence.
    + apply Hks in Hx as [Hx _]. unfold vtx in Hx. congruence.
Qed.
Theorem C41_radius_zero_panics (L : lgraph) (u : N) : sreach_set L u 0 = Panic.
Proof. done. Qed.

(** ** C42 *)
Theorem C42_wreach_sets (L : lgraph) (r : nat) : lgraph_wf L → (N.of_nat r + 1 < u32_mod)%N →
  ∃ m, wreach_sets L r = Ok m ∧
    (∀ u, contains L u = true → ∃ w, m !! u = Some w ∧ wreach_spec L u r w) ∧
    (∀ u, contains L u = false → m !! u = None).
Proof.
  intros HL Hr. destruct (wreach_sets_spec L HL r Hr) as (m & Hm & Hdom & Hw). exists m. split_and!; [done| |].
  - intros u Hu. destruct (proj2 (Hdom u) Hu) as [w Hmw]. eauto.
  - intros u Hu. apply eq_None_not_Some. rewrite Hdom. unfold vtx. congruence.
Qed.
Theorem C42_wreach_sizes (L : lgraph) (r : nat) : lgraph_wf L → (N.of_nat r + 1 < u32_mod)%N →
  ∃ m k, wreach_sets L r = Ok m ∧ wreach_sizes L r = Ok k ∧ ∀ u, k !! u = size <$> m !! u.
Proof.
  intros HL Hr. destruct (wreach_sets_spec L HL r Hr) as (m & Hm & Hdom & Hw).
  destruct (wreach_sizes_wlayer L HL r Hr) as (k & Hk & Hks). exists m, k. split_and!; [done|done|].
  intros u. rewrite Hks. destruct (decide (u ∈ vertices L)) as [Hu|Hu]; rewrite (vs_vtx L HL), <- Hdom in Hu.
  - destruct Hu as [w Hu]. rewrite Hu. cbn. by rewrite (wreach_size_eq L HL r Hr m u w Hm Hu).
  - apply eq_None_not_Some in Hu. by rewrite Hu.
Qed.

(** ** C44: the count is right when every left neighbourhood is a clique (perfect elimination
    orders of chordal graphs) or independent (for example in triangle-free graphs). *)
Theorem C44_count_partial (L : lgraph) : lgraph_wf L →
  (∀ v, contains L v = true → left_clique L v ∨ left_independent L v) →
  ∃ K : gset (gset N), count_max_cliques L = Ok (size K) ∧ ∀ X, X ∈ K ↔ max_clique L X.
Proof. intros HL. apply (count_exact L HL). Qed.
Theorem C44_triangle_free (L : lgraph) : lgraph_wf L →
  (∀ x y z, adj L x y → adj L y z → ¬ adj L x z) →
  ∃ K : gset (gset N), count_max_cliques L = Ok (size K) ∧ ∀ X, X ∈ K ↔ max_clique L X.
Proof.
  intros HL Ht. apply (count_exact L HL). intros v _. right. intros x y Hx _ Hy _ Hxy.
  eapply (Ht v x y); done.
Qed.
(** It always returns. *)
Theorem C44_total (L : lgraph) : lgraph_wf L → ∃ n, count_max_cliques L = Ok n.
Proof. intros HL. apply (count_total L HL). Qed.

(** ** C45 *)
(** Whatever is returned is proper, lives on the vertices, and uses at most max_left_degree+1
    colours 0..k-1. *)
Theorem C45_colour_greedy_partial (L : lgraph) (c : gmap N N) : lgraph_wf L → colour_greedy L = Ok c →
  proper_on_domain L c ∧ (∀ v, is_Some (c !! v) → contains L v = true) ∧
  ∃ d, max_left_degree L = Ok d ∧ ∀ v a, c !! v = Some a → (a < N.of_nat (d + 1))%N.
Proof.
  intros HL Hc. destruct (colour_greedy_inv L HL c Hc) as (used & Hused & Hdom & Hprop & Hlen). cbn [fst snd] in *.
  destruct (C34_degree_maps L HL) as (m & d & Hm & Hd & Hle & _).
  split_and!; [done| |].
  - intros v [a Ha]. apply Hdom in Ha as [Hv _]. by apply (vs_vtx L HL).
  - exists d. split; [done|]. intros v a Ha. apply Hdom in Ha as [_ Hin].
    assert (length used ≤ S d) as Hl.
    { destruct Hlen as [->|(u & l & Hu & Hul & Hl)]; [cbn; lia|].
      destruct (Hle u Hu) as (l' & Hul' & _ & Hld). rewrite Hul in Hul'. simplify_eq. lia. }
    rewrite Hused in Hin. apply elem_of_list_fmap in Hin as (k & -> & Hk%elem_of_seq). lia.
Qed.
(** In a perfect elimination order it colours every vertex. *)
Theorem C45_perfect_elimination (L : lgraph) : lgraph_wf L →
  (∀ v, contains L v = true → left_clique L v) →
  ∃ c d, colour_greedy L = Ok c ∧ (∀ v, contains L v = true ↔ is_Some (c !! v)) ∧
    (∀ u v a b, adj L u v → c !! u = Some a → c !! v = Some b → a ≠ b) ∧
    max_left_degree L = Ok d ∧ ∀ v a, c !! v = Some a → (a < N.of_nat (d + 1))%N.
Proof.
  intros HL Hcl. destruct (colour_greedy_total L HL Hcl) as (c & Hc & Hall).
  destruct (C45_colour_greedy_partial L c HL Hc) as (Hp & Hv & d & Hd & Hb). exists c, d.
  split_and!; [done| |done|done|done]. intros v. split; auto.
Qed.
End with_iter.

Local Existing Instance std_iter.

(** ** Refutations *)
Local Ltac mem := apply (bool_decide_unpack _); vm_compute; done.
Local Ltac nomem Hi := apply (bool_decide_pack _) in Hi; vm_compute in Hi; done.
(** A vertex [3] with neighbours 0,1,2 where 0 and 1 are adjacent: two maximal cliques, counted as four. *)
Theorem C44_count_refuted : ∃ (L : lgraph) (n : nat), lgraph_wf L ∧ count_max_cliques L = Ok n ∧
  ¬ ∃ K : gset (gset N), n = size K ∧ ∀ X, X ∈ K ↔ max_clique L X.
Proof.
  set (es := [(0, 1); (3, 0); (3, 1); (3, 2)]%N). set (order := [0; 1; 2; 3]%N).
  destruct (ex_lin_spec es order) as (_ & Hwf & Hvs & Hc & Ha); [vm_compute; done|].
  assert (count_max_cliques (ex_lin es order) = Ok 4) as Hcount by (vm_compute; done).
  set (L := ex_lin es order) in *. clearbody L.
  exists L, 4. split_and!; [done|done|]. intros (K & HK & Hmax).
  assert (K ⊆ {[ {[0; 1; 3]}; {[2; 3]} ]}%N) as Hsub.
  { intros X HX. apply Hmax in HX as (Hne & Hs & Hcl & Hm).
    assert (∀ x, x ∈ X → x = 0 ∨ x = 1 ∨ x = 2 ∨ x = 3)%N as Hs'.
    { intros x Hx. apply Hs, Hc in Hx. unfold order in Hx. rewrite !elem_of_cons, elem_of_nil in Hx. tauto. }
    assert (3 ∈ X)%N as H3.
    { destruct (decide (3 ∈ X)%N) as [|Hn]; [done|]. exfalso. destruct (Hm 3%N) as (x & Hx & Hna); [apply Hc; mem|done|].
      apply Hna, Ha. destruct (Hs' x Hx) as [->|[->|[->| ->]]]; [left; mem|left; mem|left; mem|done]. }
    assert (∀ x y, x ∈ X → y ∈ X → x ≠ y → (x, y) ∈ es ∨ (y, x) ∈ es) as Hadj.
    { intros x y Hx Hy Hxy. by apply Ha, Hcl. }
    rewrite elem_of_union, !elem_of_singleton. destruct (decide (2 ∈ X)%N) as [H2|H2].
    - right. apply set_eq. intros x. rewrite elem_of_union, !elem_of_singleton. split; [|by intros [->| ->]].
      intros Hx. destruct (Hs' x Hx) as [->|[->|[->| ->]]]; [| |by left|by right].
      + exfalso. destruct (Hadj 0 2)%N as [Hi|Hi]; [done|done|done| |]; nomem Hi.
      + exfalso. destruct (Hadj 1 2)%N as [Hi|Hi]; [done|done|done| |]; nomem Hi.
    - left. assert (∀ y, y = 0 ∨ y = 1 → y ∈ X)%N as H01.
      { intros y Hy. destruct (decide (y ∈ X)) as [|Hn]; [done|]. exfalso.
        destruct (Hm y) as (x & Hx & Hna); [apply Hc; destruct Hy as [->| ->]; mem|done|].
        apply Hna, Ha. destruct (Hs' x Hx) as [->|[->|[->| ->]]], Hy as [->| ->]; try done; (left; mem) || (right; mem). }
      apply set_eq. intros x. rewrite !elem_of_union, !elem_of_singleton. split.
      + intros Hx. destruct (Hs' x Hx) as [->|[->|[->| ->]]]; [auto|auto|done|auto].
      + intros [[->| ->]| ->]; auto. }
  apply subseteq_size in Hsub. rewrite <- HK in Hsub.
  assert (size ({[ {[0; 1; 3]}; {[2; 3]} ]} : gset (gset N))%N = 2) as Hsz by (vm_compute; done). rewrite Hsz in Hsub. lia.
Qed.

(** The path 0-2-1 in the order 0,1,2: the last vertex stays uncoloured. *)
Theorem C45_uncoloured_refuted : ∃ (L : lgraph) c v, lgraph_wf L ∧ colour_greedy L = Ok c ∧
  contains L v = true ∧ c !! v = None.
Proof.
  destruct (ex_lin_spec [(0, 2); (1, 2)]%N [0; 1; 2]%N) as (_ & Hwf & _); [vm_compute; done|].
  eexists _, _, 2%N. split_and!; [exact Hwf|vm_compute; reflexivity|vm_compute; done|vm_compute; done].
Qed.
(** One more vertex attached to it panics. *)
Theorem C45_panic_refuted : ∃ L : lgraph, lgraph_wf L ∧ colour_greedy L = Panic.
Proof.
  destruct (ex_lin_spec [(0, 2); (1, 2); (2, 3)]%N [0; 1; 2; 3]%N) as (_ & Hwf & _); [vm_compute; done|].
  eexists. split; [exact Hwf|vm_compute; done].
Qed.

(** Concrete cases: the cycle 0-1-2-3-4 with a pendant vertex 5 at 0, in the order 2,0,5,1,4,3. *)
Definition ex_c5 : lgraph := ex_lin [(0, 1); (1, 2); (2, 3); (3, 4); (4, 0); (0, 5)]%N [2; 0; 5; 1; 4; 3]%N.
Example ex_c5_wf : lgraph_wf ex_c5 ∧ contains ex_c5 0 = true ∧ contains ex_c5 9 = false.
Proof.
  split; [|vm_compute; done].
  apply (ex_lin_spec [(0, 1); (1, 2); (2, 3); (3, 4); (4, 0); (0, 5)]%N [2; 0; 5; 1; 4; 3]%N). vm_compute. done.
Qed.
Example ex_C40 : (ls ← right_bfs ex_c5 0 3; Ok (map elements ls)) = Ok [[0]; [1; 5; 4]; [3]; []]%N.
Proof. vm_compute. done. Qed.
Example ex_C41 : (s ← sreach_set ex_c5 3 2; Ok (map_to_list s)) = Ok [(2%N, 1); (4%N, 1)] ∧
  (s ← sreach_set ex_c5 4 2; Ok (map_to_list s)) = Ok [(0%N, 1); (2%N, 2)] ∧
  (k ← sreach_sizes ex_c5 2; Ok (k !! 1%N, k !! 2%N)) = Ok (Some 2, Some 0).
Proof. vm_compute. done. Qed.
Example ex_C42 : (m ← wreach_sets ex_c5 2; Ok (map_to_list <$> m !! 3%N)) = Ok (Some [(0%N, 2); (2%N, 1); (4%N, 1)]) ∧
  (m ← wreach_sets ex_c5 1; Ok (map_to_list <$> m !! 3%N)) = Ok (Some [(2%N, 1); (4%N, 1)]) ∧
  (k ← wreach_sizes ex_c5 2; Ok (k !! 3%N, k !! 2%N)) = Ok (Some 3, Some 0).
Proof. vm_compute. done. Qed.
(** [ex_c5] has no triangle and six edges; two triangles sharing an edge in a perfect elimination order. *)
Definition ex_diamond : lgraph := ex_lin [(0, 1); (1, 2); (0, 2); (1, 3); (2, 3)]%N [0; 1; 2; 3]%N.
Example ex_diamond_left v : contains ex_diamond v = true → left_clique ex_diamond v.
Proof.
  apply left_clique_b_spec; [|vm_compute; done].
  apply (ex_lin_spec [(0, 1); (1, 2); (0, 2); (1, 3); (2, 3)]%N [0; 1; 2; 3]%N). vm_compute. done.
Qed.
Example ex_c5_triangle_free x y z : adj ex_c5 x y → adj ex_c5 y z → ¬ adj ex_c5 x z.
Proof. apply triangle_free_b_spec; [apply ex_c5_wf|vm_compute; done]. Qed.
Example ex_C44 : count_max_cliques ex_c5 = Ok 6 ∧ count_max_cliques ex_diamond = Ok 2.
Proof. vm_compute. done. Qed.
Example ex_C45 : (c ← colour_greedy ex_diamond; Ok (map (λ v, c !! v) [0; 1; 2; 3]%N)) = Ok [Some 0; Some 1; Some 2; Some 0]%N.
Proof. vm_compute. done. Qed.

Print Assumptions C40_right_bfs.
Print Assumptions C40_not_a_vertex_panics.
Print Assumptions C41_sreach_set.
Print Assumptions C41_sreach_sets_sizes.
Print Assumptions C41_radius_zero_panics.
Print Assumptions C42_wreach_sets.
Print Assumptions C42_wreach_sizes.
Print Assumptions C44_count_partial.
Print Assumptions C44_triangle_free.
Print Assumptions C44_total.
Print Assumptions C45_colour_greedy_partial.
Print Assumptions C45_perfect_elimination.
Print Assumptions C44_count_refuted.
Print Assumptions C45_uncoloured_refuted.
Print Assumptions C45_panic_refuted.
