(** Proofs about right_bfs and the reachability sets. *)
From Verif Require Import Base Spec M_Graph M_Iterators M_OrdGraph M_Linear S_Graph S_Linear S_Reach
  P_Graph P_OrdGraph P_OrdGraph2 P_DegenGraph.

(** ** Distances *)
Lemma bfs_step {A} (R : A → A → Prop) d x v :
  is_dist R (S d) x v ↔ ¬ within R d x v ∧ ∃ u, is_dist R d x u ∧ R u v.
Proof.
  split.
  - intros [Hs Hm]. split.
    { intros (n & Hn & H). apply Hm in H. lia. }
    apply nsteps_inv_r in Hs as (u & Hu & HR). exists u. split; [|done]. split; [done|].
    intros n Hn. pose proof (Hm (S n) (nsteps_r _ _ _ _ Hn HR)). lia.
  - intros [Hw (u & [Hu _] & HR)]. split; [by eapply nsteps_r|].
    intros n Hn. destruct (decide (n ≤ d)); [|lia]. exfalso. apply Hw. by exists n.
Qed.
Lemma is_dist_unique {A} (R : A → A → Prop) d d' x y : is_dist R d x y → is_dist R d' x y → d = d'.
Proof. intros [H1 H2] [H3 H4]. apply H2 in H3. apply H4 in H1. lia. Qed.

Lemma ex_cons {A} (P : A → Prop) a l : (∃ x, x ∈ a :: l ∧ P x) ↔ P a ∨ ∃ x, x ∈ l ∧ P x.
Proof. setoid_rewrite elem_of_cons. split; [intros (? & [->|?] & ?)|intros [?|(? & ? & ?)]]; eauto. Qed.

(** ** Walks as lists *)
Lemma walk_cons2 {A} (R : A → A → Prop) x y l : walk R (x :: y :: l) ↔ R x y ∧ walk R (y :: l).
Proof. done. Qed.
Lemma walk_snoc {A} (R : A → A → Prop) l x y : walk R (l ++ [x; y]) ↔ walk R (l ++ [x]) ∧ R x y.
Proof.
  induction l as [|a l IH]; [cbn; naive_solver|]. destruct l as [|b l]; [cbn; naive_solver|].
  cbn [app]. rewrite !walk_cons2. rewrite <- !app_comm_cons in IH. rewrite IH. naive_solver.
Qed.
Lemma walk_nsteps {A} (R : A → A → Prop) (P : A → Prop) n x y : P x →
  (nsteps (λ a b, R a b ∧ P a ∧ P b) n x y ↔
   ∃ p, length p = S n ∧ head p = Some x ∧ last p = Some y ∧ walk R p ∧ ∀ z, z ∈ p → P z).
Proof.
  revert x. induction n as [|n IH]; intros x Hx; split.
  - intros H. inversion H; subst. exists [y]. split_and!; try done. set_solver.
  - intros ([|a [|]] & Hl & Hh & Hla & _); try done. cbn in *. simplify_eq. constructor.
  - intros H. inversion H as [|? ? z ? (Hxz & _ & Hz) Hn]; subst.
    apply IH in Hn as (p & Hl & Hh & Hla & Hw & HP); [|done]. exists (x :: p). destruct p as [|a p]; [done|].
    cbn in Hh. simplify_eq. split_and!; try done; [cbn in *; lia|]. intros w. rewrite elem_of_cons. naive_solver.
  - intros ([|a [|b p]] & Hl & Hh & Hla & Hw & HP); try done. cbn in Hh. simplify_eq.
    destruct Hw as [Hab Hw]. apply nsteps_l with b.
    + split_and!; [done|done|]. apply HP. set_solver.
    + apply IH; [apply HP; set_solver|]. exists (b :: p). split_and!; try done; [cbn in *; lia|]. set_solver.
Qed.

Section with_iter.
Context `{HI : HashIter}.

Section bfs.
Context (L : lgraph) (HL : lgraph_wf L).
Let HW := lwf_graph L HL.

Lemma vs_nodup : NoDup (vertices L).
Proof. apply wf_vertices_nodup, HW. Qed.
Lemma vs_vtx u : u ∈ vertices L ↔ vtx L u.
Proof. apply wf_vertices, HW. Qed.
Lemma before_vtx u v : before (vertices L) u v → vtx L u ∧ vtx L v.
Proof. intros Hb. apply before_cons_inv in Hb as [? ?]. by rewrite <- !vs_vtx. Qed.
Lemma index_ltb u v i j : index_of L u = Ok i → index_of L v = Ok j → (i <? j) = true ↔ before (vertices L) u v.
Proof. intros Hi Hj. rewrite Nat.ltb_lt. by apply (lwf_index_lt L HL). Qed.

Lemma nbrs_ok u : vtx L u → ∃ ns, neighbours L u = Ok ns ∧ NoDup ns ∧ ∀ v, v ∈ ns ↔ adj L u v.
Proof. intros Hu. destruct (wf_neighbours _ HW u Hu) as (l & ? & ? & ? & _). eauto. Qed.

Lemma adj_r u v : adj L u v → vtx L v.
Proof. intros Ha. apply (wf_adj_sym _ HW) in Ha. by eapply (wf_adj_vtx _ HW). Qed.

Lemma rb_inner root iroot ns : index_of L root = Ok iroot → (∀ v, v ∈ ns → vtx L v) →
  ∀ st : gset N * gset N, ∃ st', fold_res (λ st v,
      iv ← index_of L v;
      Ok (if (iroot <? iv) && negb (bool_decide (v ∈ st.2))
          then ({[v]} ∪ st.1, {[v]} ∪ st.2) else st)) ns st = Ok st' ∧
    (∀ v, v ∈ st'.1 ↔ v ∈ st.1 ∨ v ∉ st.2 ∧ v ∈ ns ∧ before (vertices L) root v) ∧
    (∀ v, v ∈ st'.2 ↔ v ∈ st.2 ∨ v ∈ ns ∧ before (vertices L) root v).
Proof.
  intros Hr. induction ns as [|x ns IH]; intros Hv st; cbn [fold_res].
  { exists st. split; [done|]. set_solver. }
  destruct (lwf_index L HL x) as [ix Hix]; [apply Hv; set_solver|]. rewrite Hix. cbn [mbind res_bind].
  destruct (IH ltac:(set_solver) (if (iroot <? ix) && negb (bool_decide (x ∈ st.2))
          then ({[x]} ∪ st.1, {[x]} ∪ st.2) else st)) as (st' & -> & H1 & H2).
  exists st'. split; [done|]. pose proof (index_ltb root x iroot ix Hr Hix) as Hb.
  destruct (iroot <? ix) eqn:E1; [destruct (decide (x ∈ st.2)) as [Hx|Hx]|]; cbn [andb] in H1, H2.
  - rewrite bool_decide_true in H1, H2 by done. cbn in H1, H2. split; intros v.
    + rewrite H1, elem_of_cons. naive_solver.
    + rewrite H2, elem_of_cons. naive_solver.
  - rewrite bool_decide_false in H1, H2 by done. cbn in H1, H2. destruct Hb as [Hb _]. specialize (Hb eq_refl).
    split; intros v.
    + rewrite H1, elem_of_cons, !elem_of_union, elem_of_singleton.
      destruct (decide (v = x)) as [->|]; naive_solver.
    + rewrite H2, elem_of_cons, elem_of_union, elem_of_singleton. naive_solver.
  - cbn in H1, H2. assert (¬ before (vertices L) root x) by (intros ?%Hb; done).
    split; intros v.
    + rewrite H1, elem_of_cons. naive_solver.
    + rewrite H2, elem_of_cons. naive_solver.
Qed.

Lemma rb_layer_spec root iroot cur seen : index_of L root = Ok iroot → (∀ u, u ∈ cur → vtx L u) →
  ∃ new seen', rb_layer L iroot cur seen = Ok (new, seen') ∧
    (∀ v, v ∈ new ↔ v ∉ seen ∧ ∃ u, u ∈ cur ∧ adj L u v ∧ before (vertices L) root v) ∧
    (∀ v, v ∈ seen' ↔ v ∈ seen ∨ v ∈ new).
Proof.
  intros Hr Hcur. unfold rb_layer.
  match goal with |- ∃ new seen', fold_res ?f _ _ = _ ∧ _ =>
    assert (∀ us, (∀ u, u ∈ us → vtx L u) → ∀ st : gset N * gset N, ∃ st', fold_res f us st = Ok st' ∧
      (∀ v, v ∈ st'.1 ↔ v ∈ st.1 ∨ v ∉ st.2 ∧ ∃ u, u ∈ us ∧ adj L u v ∧ before (vertices L) root v) ∧
      (∀ v, v ∈ st'.2 ↔ v ∈ st.2 ∨ ∃ u, u ∈ us ∧ adj L u v ∧ before (vertices L) root v)) as HH
  end.
  { induction us as [|u us IH]; intros Hus st; cbn [fold_res].
    { exists st. split; [done|]. set_solver. }
    destruct (nbrs_ok u) as (ns & -> & _ & Hns); [apply Hus; set_solver|]. cbn [mbind res_bind].
    destruct (rb_inner root iroot ns Hr) with (st := st) as (st1 & -> & H1 & H2).
    { intros v Hv%Hns. by eapply adj_r. }
    cbn [mbind res_bind]. destruct (IH ltac:(set_solver) st1) as (st2 & -> & H3 & H4).
    exists st2. split; [done|]. split; intros v.
    - rewrite H3, H1, ex_cons, Hns. specialize (H2 v). rewrite Hns in H2.
      destruct (decide (v ∈ st.2)), (decide (v ∈ st1.2)); tauto.
    - rewrite H4, H2, ex_cons, Hns. tauto. }
  destruct (HH (hash_iter 0 cur)) with (st := (∅ : gset N, seen)) as ([new seen'] & Hf & H1 & H2).
  { intros u. rewrite elem_of_hash_iter. apply Hcur. }
  exists new, seen'. split; [done|]. cbn in H1, H2. setoid_rewrite elem_of_hash_iter in H1.
  setoid_rewrite elem_of_hash_iter in H2.
  assert (∀ v, v ∈ new ↔ v ∉ seen ∧ ∃ u, u ∈ cur ∧ adj L u v ∧ before (vertices L) root v) as Hnew.
  { intros v. rewrite H1. set_solver. }
  split; [done|]. intros v. rewrite H2, Hnew. destruct (decide (v ∈ seen)); naive_solver.
Qed.

Lemma right_adj_vtx root x y : right_adj L root x y → vtx L y.
Proof. intros (H & _). by eapply adj_r. Qed.
Lemma right_nsteps_vtx root n x y : vtx L x → nsteps (right_adj L root) n x y → vtx L y.
Proof. intros Hx Hn. induction Hn as [|? ? ? ? ? ? IH]; [done|]. eapply IH, right_adj_vtx. done. Qed.
Lemma right_nsteps_nl root n y : nsteps (right_adj L root) n root y → not_left L root y.
Proof.
  intros Hn. destruct n as [|n]; [inversion Hn; subst; by left|].
  apply nsteps_inv_r in Hn as (z & _ & (_ & _ & ?)). done.
Qed.

Lemma rb_loop_spec root iroot n : index_of L root = Ok iroot → vtx L root → ∀ d cur seen,
  (∀ v, v ∈ cur ↔ is_dist (right_adj L root) d root v) →
  (∀ v, v ∈ seen ↔ within (right_adj L root) d root v) →
  ∃ ls, rb_loop L iroot n cur seen = Ok ls ∧ length ls = n ∧
    ∀ i X, ls !! i = Some X → ∀ v, v ∈ X ↔ is_dist (right_adj L root) (S (d + i)) root v.
Proof.
  intros Hr Hv. induction n as [|n IH]; intros d cur seen Hc Hs; cbn [rb_loop].
  { by exists []. }
  destruct (rb_layer_spec root iroot cur seen Hr) as (new & seen' & -> & Hn & Hs').
  { intros u [Hu _]%Hc. by eapply right_nsteps_vtx. }
  cbn [mbind res_bind fst snd].
  assert (∀ v, v ∈ new ↔ is_dist (right_adj L root) (S d) root v) as Hn'.
  { intros v. rewrite Hn, bfs_step, Hs. split.
    - intros [Hw (u & Hu & Ha & Hb)]. split; [done|]. apply Hc in Hu. exists u. split; [done|].
      split_and!; [done|by eapply right_nsteps_nl, Hu|by right].
    - intros [Hw (u & Hu & Ha & Hnu & Hnv)]. split; [done|]. exists u. split; [by apply Hc|].
      split; [done|]. destruct Hnv as [->|]; [|done]. exfalso. apply Hw. exists 0. split; [lia|constructor]. }
  destruct (IH (S d) new seen') as (ls & -> & Hlen & Hls).
  { done. }
  { intros v. rewrite Hs', Hn', Hs. split.
    - intros [(m & Hm & ?)|[? _]]; [exists m; split; [lia|done]|]. exists (S d). split; [lia|done].
    - intros (m & Hm & Hst). destruct (decide (v ∈ seen)) as [Hin|Hin]; [left; by apply Hs|]. right.
      destruct (decide (m = S d)) as [->|].
      + split; [done|]. intros k Hk. destruct (decide (k ≤ d)); [|lia]. exfalso. apply Hin, Hs. by exists k.
      + exfalso. apply Hin, Hs. exists m. split; [lia|done]. }
  cbn [mbind res_bind]. eexists. split; [done|]. split; [cbn; lia|].
  intros [|i] X HX; cbn in HX.
  - simplify_eq. by rewrite Nat.add_0_r.
  - replace (S (d + S i)) with (S (S d + i)) by lia. by apply Hls.
Qed.

Lemma right_bfs_spec root dist : vtx L root → (N.of_nat dist + 1 < u32_mod)%N →
  ∃ ls, right_bfs L root dist = Ok ls ∧ length ls = S dist ∧
    ∀ d X, ls !! d = Some X → ∀ v, v ∈ X ↔ is_dist (right_adj L root) d root v.
Proof.
  intros Hv Hd. unfold right_bfs. destruct (lwf_index L HL root Hv) as [iroot Hr]. rewrite Hr.
  cbn [mbind res_bind]. rewrite (proj2 (N.ltb_lt _ _) Hd). cbn [assert_res mbind res_bind].
  assert (∀ v, v ∈ ({[root]} : gset N) ↔ is_dist (right_adj L root) 0 root v) as H0.
  { intros v. rewrite elem_of_singleton. split.
    - intros ->. split; [constructor|lia].
    - intros [Hn _]. by inversion Hn. }
  destruct (rb_loop_spec root iroot dist Hr Hv 0 {[root]} {[root]}) as (ls & -> & Hlen & Hls).
  { done. }
  { intros v. rewrite within_0. set_solver. }
  cbn [mbind res_bind]. eexists. split; [done|]. split; [cbn; lia|].
  intros [|d] X HX; cbn in HX; [simplify_eq; done|]. by apply Hls.
Qed.

(** Every vertex within the depth is in some layer. *)
Lemma layers_cover root dist (ls : list (gset N)) : length ls = S dist →
  (∀ d X, ls !! d = Some X → ∀ v, v ∈ X ↔ is_dist (right_adj L root) d root v) →
  ∀ n v, n ≤ dist → nsteps (right_adj L root) n root v → ∃ d, d ≤ n ∧ is_dist (right_adj L root) d root v.
Proof.
  intros Hlen Hls n v Hn Hst. revert Hn Hst. induction (lt_wf n) as [n _ IH]. intros Hn Hst.
  destruct (decide (Exists (λ X, v ∈ X) (take n ls))) as [HE|HE].
  - apply Exists_exists in HE as (X & HX & HvX). apply elem_of_list_lookup in HX as [d Hd].
    apply lookup_take_Some in Hd as [Hd Hlt]. exists d. split; [lia|]. by eapply Hls.
  - exists n. split; [done|]. split; [done|]. intros m Hm. destruct (decide (m < n)) as [Hlt|]; [|lia].
    exfalso. destruct (IH m Hlt ltac:(lia) Hm) as (d & Hdm & Hd). apply HE, Exists_exists.
    destruct (lookup_lt_is_Some_2 ls d ltac:(lia)) as [X HX]. exists X. split; [|by eapply Hls].
    apply elem_of_list_lookup. exists d. rewrite lookup_take by lia. done.
Qed.

(** ** Strong reachability *)
Lemma or_insert_lookup (x y : N) (k : nat) (m : gmap N nat) j :
  or_insert x k m !! y = Some j ↔ m !! y = Some j ∨ y = x ∧ m !! y = None ∧ j = k.
Proof.
  unfold or_insert. destruct (m !! x) eqn:E.
  - naive_solver.
  - destruct (decide (y = x)) as [->|].
    + rewrite lookup_insert, E. naive_solver.
    + rewrite lookup_insert_ne by done. naive_solver.
Qed.

Lemma sr_inner u iu k xs : index_of L u = Ok iu → (∀ x, x ∈ xs → vtx L x) → ∀ m : gmap N nat, ∃ m',
  fold_res (λ m x, ix ← index_of L x; Ok (if ix <? iu then or_insert x k m else m)) xs m = Ok m' ∧
  ∀ x j, m' !! x = Some j ↔ m !! x = Some j ∨ m !! x = None ∧ j = k ∧ x ∈ xs ∧ before (vertices L) x u.
Proof.
  intros Hu. induction xs as [|y xs IH]; intros Hv m; cbn [fold_res].
  { exists m. split; [done|]. set_solver. }
  destruct (lwf_index L HL y) as [iy Hiy]; [apply Hv; set_solver|]. rewrite Hiy. cbn [mbind res_bind].
  destruct (IH ltac:(set_solver) (if iy <? iu then or_insert y k m else m)) as (m' & -> & Hm').
  exists m'. split; [done|]. intros x j. rewrite Hm', elem_of_cons.
  pose proof (index_ltb y u iy iu Hiy Hu) as Hb. destruct (iy <? iu).
  - specialize (proj1 Hb eq_refl) as Hb'. rewrite or_insert_lookup.
    assert (or_insert y k m !! x = None ↔ m !! x = None ∧ x ≠ y) as ->.
    { rewrite !eq_None_not_Some. split.
      - intros Hno. split; [intros [j' Hj']; apply Hno; exists j'; rewrite or_insert_lookup; by left|].
        intros ->. apply Hno. destruct (m !! y) as [j'|] eqn:E; [exists j'|exists k]; rewrite or_insert_lookup; naive_solver.
      - intros [Hno Hne] [j' Hj']. apply or_insert_lookup in Hj' as [?|(-> & _)]; [|done]. apply Hno. eauto. }
    destruct (decide (x = y)) as [->|]; naive_solver.
  - assert (¬ before (vertices L) y u) by (intros ?%Hb; done). naive_solver.
Qed.

Lemma sr_layer u iu k vs : index_of L u = Ok iu → (∀ v, v ∈ vs → vtx L v) → ∀ m : gmap N nat, ∃ m',
  fold_res (λ m v, xs ← left_neighbours L v;
      fold_res (λ m x, ix ← index_of L x; Ok (if ix <? iu then or_insert x k m else m)) xs m) vs m = Ok m' ∧
  ∀ x j, m' !! x = Some j ↔ m !! x = Some j ∨
    m !! x = None ∧ j = k ∧ before (vertices L) x u ∧ ∃ v, v ∈ vs ∧ adj L v x ∧ before (vertices L) x v.
Proof.
  intros Hu. induction vs as [|v vs IH]; intros Hv m; cbn [fold_res].
  { exists m. split; [done|]. set_solver. }
  destruct (lwf_left L HL v) as (xs & -> & Hxs & _); [apply Hv; set_solver|]. cbn [mbind res_bind].
  destruct (sr_inner u iu k xs Hu) with (m := m) as (m1 & -> & Hm1).
  { intros x Hx. apply Hxs in Hx as [Hx _]. by eapply adj_r. }
  cbn [mbind res_bind]. destruct (IH ltac:(set_solver) m1) as (m2 & -> & Hm2). exists m2. split; [done|].
  intros x j. rewrite Hm2, ex_cons.
  assert (m1 !! x = None ↔ m !! x = None ∧ ¬ (x ∈ xs ∧ before (vertices L) x u)) as ->.
  { rewrite !eq_None_not_Some. split.
    - intros Hno. split; [intros [j' ?]; apply Hno; exists j'; apply Hm1; by left|]. intros [? ?].
      destruct (m !! x) as [j'|] eqn:E; apply Hno; [exists j'|exists k]; apply Hm1; naive_solver.
    - intros [Hno Hx] [j' Hj']. apply Hm1 in Hj'. naive_solver. }
  rewrite Hm1, !Hxs. destruct (decide (x ∈ xs)) as [Hin|Hin]; rewrite Hxs in Hin.
  - clear -HI Hin. tauto.
  - clear -HI Hin. tauto.
Qed.

Lemma sreach_walk_nsteps u x k : vtx L u →
  sreach_walk L u x (S k) ↔ ∃ v, nsteps (right_adj L u) k u v ∧ adj L v x.
Proof.
  intros Hu. split.
  - intros (q & Hl & Hh & Hw & Hq). destruct q as [|v q _] using rev_ind; [done|].
    exists v. rewrite <- app_assoc in Hw. cbn in Hw. apply walk_snoc in Hw as [Hw Ha]. split; [|done].
    apply (walk_nsteps (adj L) (not_left L u)); [by left|]. exists (q ++ [v]).
    split_and!; [done| |by rewrite last_snoc|done|done].
    destruct q; [done|]. done.
  - intros (v & Hn & Ha). apply (walk_nsteps (adj L) (not_left L u)) in Hn as (p & Hl & Hh & Hla & Hw & Hp); [|by left].
    exists p. split; [done|]. destruct p as [|v' p _] using rev_ind; [done|]. rewrite last_snoc in Hla. simplify_eq.
    split_and!; [by destruct p| |done]. rewrite <- app_assoc. apply walk_snoc. done.
Qed.
Lemma sreach_walk_pos u x k : before (vertices L) x u → sreach_walk L u x k → k ≠ 0.
Proof.
  intros Hb (q & Hl & Hh & _) ->. destruct q; [|done]. cbn in Hh. simplify_eq.
  by apply (ord_irrefl' _ _ vs_nodup) in Hb.
Qed.

Lemma sreach_set_spec u r : vtx L u → 1 ≤ r → (N.of_nat r < u32_mod)%N →
  ∃ s, sreach_set L u r = Ok s ∧ sreach_spec L u r s.
Proof.
  intros Hu Hr Hr2. unfold sreach_set, sub_checked. rewrite (proj2 (Nat.leb_le _ _) Hr). cbn [mbind res_bind].
  destruct (right_bfs_spec u (r - 1) Hu) as (ls & -> & Hlen & Hls); [lia|]. cbn [mbind res_bind].
  destruct (lwf_index L HL u Hu) as [iu Hiu]. rewrite Hiu. cbn [mbind res_bind].
  set (touch := λ d x, ∃ X v, ls !! d = Some X ∧ v ∈ X ∧ adj L v x).
  match goal with |- ∃ s, fold_res ?f _ _ = _ ∧ _ =>
    destruct (fold_res_inv f (λ pre m, ∀ x j, m !! x = Some j ↔ ∃ d, j = S d ∧ d < length pre ∧
      before (vertices L) x u ∧ touch d x ∧ ∀ d', d' < d → ¬ touch d' x) (imap pair ls) ∅) as (s & Hf & Hs)
  end.
  { intros x j. rewrite lookup_empty. cbn. naive_solver lia. }
  { intros l1 [d X] l2 m Hl Hm. cbn [fst snd].
    assert (imap pair ls !! length l1 = Some (d, X)) as Hd by (rewrite Hl; by apply list_lookup_middle).
    rewrite list_lookup_imap in Hd. destruct (ls !! length l1) as [X'|] eqn:HX; [|done]. cbn in Hd. simplify_eq.
    destruct (sr_layer u iu (S (length l1)) (hash_iter 1 X) Hiu) with (m := m) as (m' & Hm' & Hs').
    { intros v. rewrite elem_of_hash_iter, (Hls _ _ HX). intros [Hv _]. by eapply right_nsteps_vtx. }
    exists m'. split; [exact Hm'|]. intros x j. rewrite Hs'. rewrite app_length. cbn [length].
    assert (before (vertices L) x u → (touch (length l1) x ↔ ∃ v, v ∈ hash_iter 1 X ∧ adj L v x ∧ before (vertices L) x v)) as Ht.
    { intros Hb. unfold touch. setoid_rewrite elem_of_hash_iter. split.
      - intros (X1 & v & ? & Hv & Ha). simplify_eq. exists v. split_and!; [done|done|].
        apply (Hls _ _ HX) in Hv as [Hv _]. apply right_nsteps_nl in Hv as [->|?]; [done|].
        by eapply (ord_trans _ _ _ _ vs_nodup).
      - naive_solver. }
    split.
    - intros [Hj|(Hno & -> & Hb & Hv)].
      + apply Hm in Hj as (d & -> & ? & ?). exists d. split; [done|]. split; [lia|done].
      + exists (length l1). split_and!; [done|lia|done|by apply Ht|].
        intros d'. induction (lt_wf d') as [d' _ IH]. intros Hlt Htd.
        assert (m !! x = Some (S d')) as E; [|congruence]. apply Hm. exists d'. split_and!; [done|done|done|done|].
        intros d'' ?. apply IH; lia.
    - intros (d & -> & Hd' & Hb & Htd & Hmin). destruct (decide (d = length l1)) as [->|].
      + right. split_and!; [|done|done|by apply Ht]. apply eq_None_not_Some. intros [j Hj].
        apply Hm in Hj as (d & -> & Hd & _ & Htd' & _). by eapply Hmin.
      + left. apply Hm. exists d. split_and!; [done|lia|done|done|done]. }
  rewrite imap_length in Hs. exists s. split; [done|]. intros x k. rewrite Hs, Hlen.
  assert (∀ d, d < r → touch d x ↔ ∃ v, is_dist (right_adj L u) d u v ∧ adj L v x) as Ht.
  { intros d Hd. destruct (lookup_lt_is_Some_2 ls d ltac:(lia)) as [X HX]. unfold touch. split.
    - intros (X' & v & HX' & Hv & Ha). exists v. split; [|done]. by eapply Hls.
    - intros (v & Hv & Ha). exists X, v. split_and!; [done| |done]. by eapply Hls. }
  split.
  - intros (d & -> & Hd & Hb & Htd & Hmin). split; [done|]. split; [lia|].
    apply Ht in Htd as (v & [Hv _] & Ha); [|lia]. split.
    + apply sreach_walk_nsteps; [done|]. eauto.
    + intros [|j] Hj; [by apply sreach_walk_pos in Hj|].
      apply sreach_walk_nsteps in Hj as (v' & Hv' & Ha'); [|done].
      destruct (decide (j < d)) as [Hlt|]; [|lia]. exfalso.
      destruct (layers_cover u (r - 1) ls Hlen Hls j v') as (d' & ? & Hd'); [lia|done|].
      apply (Hmin d'); [lia|]. apply Ht; [lia|]. eauto.
  - intros (Hb & Hk & Hw & Hmin). destruct k as [|d]; [lia|]. exists d. split_and!; [done|lia|done| |].
    + apply Ht; [lia|]. apply sreach_walk_nsteps in Hw as (v & Hv & Ha); [|done]. exists v. split; [|done].
      split; [done|]. intros n Hn. assert (S d ≤ S n); [|lia]. apply Hmin, sreach_walk_nsteps; eauto.
    + intros d' Hd' Htd. apply Ht in Htd as (v & [Hv _] & Ha); [|lia].
      assert (S d ≤ S d'); [|lia]. apply Hmin, sreach_walk_nsteps; eauto.
Qed.

Lemma sreach_sets_spec r : 1 ≤ r → (N.of_nat r < u32_mod)%N →
  ∃ m, sreach_sets L r = Ok m ∧ ∀ u s, m !! u = Some s ↔ vtx L u ∧ sreach_set L u r = Ok s.
Proof.
  intros Hr Hr2. unfold sreach_sets.
  match goal with |- ∃ s, fold_res ?f _ _ = _ ∧ _ =>
    destruct (fold_res_inv f (λ pre m, ∀ u s, m !! u = Some s ↔ u ∈ pre ∧ sreach_set L u r = Ok s) (vertices L) ∅)
      as (m & Hm & HI') end.
  { intros u s. rewrite lookup_empty. set_solver. }
  { intros l1 x l2 m Hl Hm. destruct (sreach_set_spec x r) as (s & Hs & _); [|done|done|].
    { apply vs_vtx. rewrite Hl. set_solver. }
    rewrite Hs. eexists. split; [done|]. intros u s'. rewrite elem_of_app, elem_of_list_singleton.
    destruct (decide (u = x)) as [->|].
    - rewrite lookup_insert, Hs. split; [intros [= ->]; auto|by intros [_ [= ->]]].
    - rewrite lookup_insert_ne by done. rewrite Hm. tauto. }
  exists m. split; [done|]. intros u s. by rewrite HI', vs_vtx.
Qed.

Lemma sreach_sizes_spec r : 1 ≤ r → (N.of_nat r < u32_mod)%N →
  ∃ m, sreach_sizes L r = Ok m ∧ ∀ u k, m !! u = Some k ↔ vtx L u ∧ ∃ s, sreach_set L u r = Ok s ∧ k = size s.
Proof.
  intros Hr Hr2. unfold sreach_sizes.
  match goal with |- ∃ s, fold_res ?f _ _ = _ ∧ _ =>
    destruct (fold_res_inv f (λ pre m, ∀ u k, m !! u = Some k ↔ u ∈ pre ∧ ∃ s, sreach_set L u r = Ok s ∧ k = size s) (vertices L) ∅)
      as (m & Hm & HI') end.
  { intros u s. rewrite lookup_empty. set_solver. }
  { intros l1 x l2 m Hl Hm. destruct (sreach_set_spec x r) as (s & Hs & _); [|done|done|].
    { apply vs_vtx. rewrite Hl. set_solver. }
    rewrite Hs. eexists. split; [done|]. intros u s'. rewrite elem_of_app, elem_of_list_singleton.
    destruct (decide (u = x)) as [->|].
    - rewrite lookup_insert, Hs. split; [intros [= <-]; eauto|intros (_ & ? & [= ->] & ->); done].
    - rewrite lookup_insert_ne by done. rewrite Hm. tauto. }
  exists m. split; [done|]. intros u s. by rewrite HI', vs_vtx.
Qed.
End bfs.
End with_iter.
