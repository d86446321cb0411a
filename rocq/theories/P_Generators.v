(** Proofs about the generators, disjoint unions and normalisation of EditGraph. *)
From Verif Require Import Base Spec M_Graph M_Iterators M_EditGraph S_Graph
  P_EditGraph P_EditGraph2 P_Graph P_Iterators P_Adds.

Lemma u32_small n : (n < 4294967296)%N → u32 n = n.
Proof. intros. unfold u32, u32_mod. by apply N.mod_small. Qed.

(** Adding one edge per element of a list. *)
Lemma adds_edge_fold {A} (f g : A → N) l :
  adds (fold_res (λ h a, r ← eg_add_edge h (f a) (g a); Ok r.1) l)
    (λ x, ∃ a, a ∈ l ∧ (x = f a ∨ x = g a))
    (λ x y, ∃ a, a ∈ l ∧ ((x = f a ∧ y = g a) ∨ (x = g a ∧ y = f a))).
Proof. apply adds_fold. intros a _. apply adds_edge. Qed.

Ltac from_adds :=
  match goal with
  | H : adds ?f _ _ |- _ =>
      let h := fresh "h" in let Hok := fresh "Hok" in let Hwf := fresh "Hwf" in
      let HV := fresh "HV" in let HE := fresh "HE" in
      apply adds_new in H as (h & Hok & Hwf & HV & HE)
  end.

Lemma eg_path_spec n :
  ∃ g, eg_path n = Ok g ∧ eg_wf g ∧ (∀ x, ev g x ↔ (x < n)%N) ∧
    (∀ x y, ea g x y ↔ (x < n ∧ y < n ∧ (y = x + 1 ∨ x = y + 1))%N).
Proof.
  unfold eg_path. destruct (N.eqb_spec n 0) as [->|H0].
  { exists eg_new. split_and!; [done|apply eg_new_wf| |].
    - intros x. pose proof (eg_new_ev x). split; [done|lia].
    - intros x y. pose proof (eg_new_ea x y). split; [done|lia]. }
  destruct (N.eqb_spec n 1) as [->|H1].
  { destruct (eg_add_vertex_spec eg_new 0 eg_new_wf) as (Hwf & _ & HV & HE & _).
    eexists; split; [done|]. split_and!; [done| |].
    - intros x. rewrite HV. pose proof (eg_new_ev x). split; [intros [?|?]; [done|lia]|right; lia].
    - intros x y. rewrite HE. pose proof (eg_new_ea x y). split; [done|lia]. }
  pose proof (adds_edge_fold (λ u, u) (λ u, u + 1)%N (range 0 (n - 1))) as H. from_adds.
  exists h. split_and!; [done|done| |].
  - intros x. rewrite HV. setoid_rewrite elem_of_range. split.
    + intros (a & ? & [->| ->]); lia.
    + intros Hx. destruct (decide (x = n - 1)%N) as [->|].
      * exists (n - 2)%N. lia.
      * exists x. lia.
  - intros x y. rewrite HE. setoid_rewrite elem_of_range. split.
    + intros (a & ? & [[-> ->]|[-> ->]]); lia.
    + intros (? & ? & [->| ->]); [exists x|exists y]; lia.
Qed.

Lemma eg_cycle_spec n :
  ∃ g, eg_cycle n = Ok g ∧ eg_wf g ∧ (∀ x, ev g x ↔ (x < n)%N) ∧
    (∀ x y, ea g x y ↔ (x < n ∧ y < n ∧
       (y = x + 1 ∨ x = y + 1 ∨ (x = 0 ∧ y = n - 1) ∨ (x = n - 1 ∧ y = 0)))%N).
Proof.
  unfold eg_cycle.
  pose proof (adds_edge_fold (λ u, u) (λ u, (u + 1) mod n)%N (range 0 n)) as H. from_adds.
  assert (∀ a, (a < n → (a + 1 < n ∧ (a + 1) mod n = a + 1) ∨ (a = n - 1 ∧ (a + 1) mod n = 0))%N) as Hm.
  { intros a Ha. destruct (decide (a + 1 = n)%N) as [E|].
    - right. split; [lia|]. rewrite E. apply N.mod_same. lia.
    - left. split; [lia|]. apply N.mod_small. lia. }
  exists h. split_and!; [done|done| |].
  - intros x. rewrite HV. setoid_rewrite elem_of_range. split.
    + intros (a & Ha & [->|Hx]); [lia|]. destruct (Hm a) as [[??]|[??]]; lia.
    + intros Hx. exists x. split; [lia|by left].
  - intros x y. rewrite HE. setoid_rewrite elem_of_range. split.
    + intros (a & ? & [[-> Hy]|[Hx ->]]); destruct (Hm a) as [[??]|[??]]; lia.
    + intros (Hx & Hy & [E|[E|[[E1 E2]|[E1 E2]]]]).
      * exists x. destruct (Hm x) as [[??]|[??]]; lia.
      * exists y. destruct (Hm y) as [[??]|[??]]; lia.
      * exists y. destruct (Hm y) as [[??]|[??]]; [lia..|]. split; [lia|]. right. lia.
      * exists x. destruct (Hm x) as [[??]|[??]]; [lia..|]. split; [lia|]. left. lia.
Qed.

Lemma eg_matching_spec n :
  (2 * n <= 4294967296)%N →
  ∃ g, eg_matching n = Ok g ∧ eg_wf g ∧ (∀ x, ev g x ↔ (x < 2 * n)%N) ∧
    (∀ x y, ea g x y ↔ (x < 2 * n ∧ y < 2 * n ∧ (y = x + n ∨ x = y + n))%N).
Proof.
  intros Hn. unfold eg_matching.
  pose proof (adds_edge_fold (λ u, u) (λ u, u32 (u + n))%N (range 0 n)) as H. from_adds.
  exists h. split_and!; [done|done| |].
  - intros x. rewrite HV. setoid_rewrite elem_of_range. split.
    + intros (a & Ha & [->| ->]); [lia|]. rewrite u32_small; lia.
    + intros Hx. destruct (decide (x < n)%N).
      * exists x. split; [lia|by left].
      * exists (x - n)%N. split; [lia|]. right. rewrite u32_small; lia.
  - intros x y. rewrite HE. setoid_rewrite elem_of_range. split.
    + intros (a & ? & [[-> Hy]|[Hx ->]]); rewrite u32_small in *; lia.
    + intros (Hx & Hy & [->| ->]).
      * exists x. split; [lia|]. left. rewrite u32_small; lia.
      * exists y. split; [lia|]. right. rewrite u32_small; lia.
Qed.

Lemma eg_independent_spec n :
  eg_wf (eg_independent n) ∧ (∀ x, ev (eg_independent n) x ↔ (x < n)%N) ∧
  (∀ x y, ¬ ea (eg_independent n) x y).
Proof.
  pose proof (adds_vertices (range 0 n)) as H. from_adds. cbn in Hok. simplify_eq.
  unfold eg_independent. split_and!; [done| |].
  - intros x. rewrite HV, elem_of_range. lia.
  - intros x y. rewrite HE. naive_solver.
Qed.

Lemma eg_clique_spec n :
  ∃ g, eg_clique n = Ok g ∧ eg_wf g ∧ (∀ x, ev g x ↔ (x < n)%N) ∧
    (∀ x y, ea g x y ↔ (x < n ∧ y < n ∧ x ≠ y)%N).
Proof.
  unfold eg_clique.
  assert (adds (fold_res (λ h u,
      let h := (eg_add_vertex h u).1 in
      fold_res (λ h v, r ← eg_add_edge h u v; Ok r.1) (range (u + 1) n) h) (range 0 n))
    (λ x, ∃ u, u ∈ range 0 n ∧ (x = u ∨ ∃ v, v ∈ range (u + 1) n ∧ (x = u ∨ x = v)))
    (λ x y, ∃ u, u ∈ range 0 n ∧ (False ∨ ∃ v, v ∈ range (u + 1) n ∧ ((x = u ∧ y = v) ∨ (x = v ∧ y = u))))) as H.
  { apply adds_fold. intros u _.
    apply (adds_seq (λ h, Ok (eg_add_vertex h u).1)); [apply adds_vertex|].
    apply (adds_edge_fold (λ _, u) (λ v, v)). }
  from_adds. exists h. split_and!; [exact Hok|done| |].
  - intros x. rewrite HV. setoid_rewrite elem_of_range. split.
    + intros (u & ? & [->|(v & ? & [->| ->])]); lia.
    + intros Hx. exists x. split; [lia|by left].
  - intros x y. rewrite HE. setoid_rewrite elem_of_range. split.
    + intros (u & ? & [[]|(v & ? & [[-> ->]|[-> ->]])]); lia.
    + intros (? & ? & ?). destruct (N.lt_gt_cases x y) as [[?|?] _]; [done| |].
      * exists x. split; [lia|]. right. exists y. lia.
      * exists y. split; [lia|]. right. exists x. lia.
Qed.

Lemma adds_biclique (A B : list N) :
  adds (fold_res (λ h u, fold_res (λ h v, r ← eg_add_edge h u v; Ok r.1) B h) A)
    (λ x, ∃ u, u ∈ A ∧ ∃ v, v ∈ B ∧ (x = u ∨ x = v))
    (λ x y, ∃ u, u ∈ A ∧ ∃ v, v ∈ B ∧ ((x = u ∧ y = v) ∨ (x = v ∧ y = u))).
Proof. apply adds_fold. intros u _. apply (adds_edge_fold (λ _, u) (λ v, v)). Qed.

Lemma eg_biclique_spec s t :
  (s + t < 4294967296)%N →
  ∃ g, eg_biclique s t = Ok g ∧ eg_wf g ∧
    (∀ x, ev g x ↔ (0 < s ∧ 0 < t ∧ x < s + t)%N) ∧
    (∀ x y, ea g x y ↔ ((x < s ∧ s <= y < s + t) ∨ (y < s ∧ s <= x < s + t))%N).
Proof.
  intros Hst. unfold eg_biclique. rewrite u32_small by done.
  pose proof (adds_biclique (range 0 s) (range s (s + t))) as H. from_adds.
  exists h. split_and!; [done|done| |].
  - intros x. rewrite HV. setoid_rewrite elem_of_range. split.
    + intros (u & ? & v & ? & [->| ->]); lia.
    + intros (? & ? & ?). destruct (decide (x < s)%N).
      * exists x. split; [lia|]. exists s. lia.
      * exists 0%N. split; [lia|]. exists x. lia.
  - intros x y. rewrite HE. setoid_rewrite elem_of_range. split.
    + intros (u & ? & v & ? & [[-> ->]|[-> ->]]); lia.
    + intros [?|?]; [exists x|exists y]; (split; [lia|]); [exists y|exists x]; lia.
Qed.

(** ** Complete k-partite graphs *)
(** [in_part l sizes i x]: [x] belongs to the [i]-th block when blocks of the given
    sizes are laid out consecutively from [l]. *)
Fixpoint in_part (l : N) (sizes : list N) (i : nat) (x : N) : Prop :=
  match sizes, i with
  | [], _ => False
  | s :: _, O => (l <= x < l + s)%N
  | s :: sizes, S i => in_part (l + s) sizes i x
  end.

Definition sumN (l : list N) : N := foldr N.add 0%N l.

Lemma in_part_lookup l sizes i x :
  (l + sumN sizes < 4294967296)%N →
  in_part l sizes i x ↔ ∃ r, kpartite_ranges l sizes !! i = Some r ∧ (r.1 <= x < r.2)%N.
Proof.
  revert l i. induction sizes as [|s sizes IH]; intros l i Hs; cbn [in_part kpartite_ranges] in *.
  - split; [done|]. intros (? & ? & _). done.
  - change (sumN (s :: sizes)) with (s + sumN sizes)%N in Hs.
    rewrite u32_small by lia. destruct i as [|i]; cbn.
    + split; [intros; eexists; split; [done|]; cbn; lia|]. intros (r & [= <-] & ?). cbn in *. lia.
    + apply IH. lia.
Qed.

Definition rpair (rs : list (N * N)) (x y : N) : Prop :=
  ∃ i j a b, i < j ∧ rs !! i = Some a ∧ rs !! j = Some b ∧
    (a.1 <= x < a.2)%N ∧ (b.1 <= y < b.2)%N.

Lemma adds_kpartite rs :
  adds (kpartite_loop rs)
    (λ x, ∃ y, rpair rs x y ∨ rpair rs y x) (λ x y, rpair rs x y ∨ rpair rs y x).
Proof.
  induction rs as [|a rs IH]; cbn.
  - eapply adds_ext; [apply adds_ret|done| |]; unfold rpair.
    + intros x. split; [done|]. intros (y & [(?&?&?&?&?&?&?)|(?&?&?&?&?&?&?)]); done.
    + intros x y. split; [done|]. intros [(?&?&?&?&?&?&?)|(?&?&?&?&?&?&?)]; done.
  - assert (adds (kpartite_row a rs)
      (λ x, ∃ b, b ∈ rs ∧ (∃ u, u ∈ range a.1 a.2 ∧ ∃ v, v ∈ range b.1 b.2 ∧ (x = u ∨ x = v)))
      (λ x y, ∃ b, b ∈ rs ∧ (∃ u, u ∈ range a.1 a.2 ∧ ∃ v, v ∈ range b.1 b.2 ∧ ((x = u ∧ y = v) ∨ (x = v ∧ y = u))))) as Hrow.
    { unfold kpartite_row. apply adds_fold. intros b _. apply adds_biclique. }
    assert (∀ x y, rpair (a :: rs) x y ↔
      (∃ b, b ∈ rs ∧ (a.1 <= x < a.2)%N ∧ (b.1 <= y < b.2)%N) ∨ rpair rs x y) as Hrp.
    { intros x y. split.
      - intros (i & j & c & b & Hij & Hi & Hj & Hx & Hy). destruct j as [|j]; [lia|]. cbn in Hj.
        destruct i as [|i]; cbn in Hi; simplify_eq.
        + left. exists b. split; [by eapply elem_of_list_lookup_2|done].
        + right. exists i, j, c, b. split_and!; first [done|lia].
      - intros [(b & [j Hj]%elem_of_list_lookup & ? & ?)|(i & j & c & b & ? & ? & ? & ? & ?)].
        + exists 0, (S j), a, b. split_and!; first [done|lia].
        + exists (S i), (S j), c, b. split_and!; first [done|lia]. }
    eapply adds_ext; [apply (adds_seq _ _ _ _ _ _ Hrow IH)|done| |].
    + intros x. cbv beta. setoid_rewrite elem_of_range. setoid_rewrite Hrp. split.
      * intros [(b & ? & u & ? & v & ? & [->| ->])|(y & [?|?])]; [exists v|exists u|exists y|exists y]; eauto 10.
      * intros (y & [[(b & ? & ? & ?)|?]|[(b & ? & ? & ?)|?]]); eauto 15.
    + intros x y. cbv beta. setoid_rewrite elem_of_range. setoid_rewrite Hrp. split.
      * intros [(b & ? & u & ? & v & ? & [[-> ->]|[-> ->]])|[?|?]]; eauto 10.
      * intros [[(b & ? & ? & ?)|?]|[(b & ? & ? & ?)|?]]; eauto 15.
Qed.

Lemma eg_kpartite_spec sizes :
  length sizes ≠ 1 → (sumN sizes < 4294967296)%N →
  ∃ g, eg_complete_kpartite sizes = Ok g ∧ eg_wf g ∧
    (∀ x, ev g x ↔ ∃ y i j, i ≠ j ∧ in_part 0 sizes i x ∧ in_part 0 sizes j y) ∧
    (∀ x y, ea g x y ↔ ∃ i j, i ≠ j ∧ in_part 0 sizes i x ∧ in_part 0 sizes j y).
Proof.
  intros Hlen Hsum.
  assert (eg_complete_kpartite sizes = kpartite_loop (kpartite_ranges 0 sizes) eg_new) as ->.
  { destruct sizes as [|? [|? ?]]; done. }
  pose proof (adds_kpartite (kpartite_ranges 0 sizes)) as H. from_adds.
  assert (∀ x y, (rpair (kpartite_ranges 0 sizes) x y ∨ rpair (kpartite_ranges 0 sizes) y x) ↔
     ∃ i j, i ≠ j ∧ in_part 0 sizes i x ∧ in_part 0 sizes j y) as Hrp.
  { intros x y. pose proof (λ i z, in_part_lookup 0 sizes i z Hsum) as Hp.
    setoid_rewrite Hp. clear Hp. split.
    - intros [(i & j & a & b & ? & ? & ? & ? & ?)|(i & j & a & b & ? & ? & ? & ? & ?)].
      + exists i, j. split_and!; [lia|eauto|eauto].
      + exists j, i. split_and!; [lia|eauto|eauto].
    - intros (i & j & ? & (a & ? & ?) & (b & ? & ?)).
      destruct (decide (i < j)); [left; exists i, j, a, b|right; exists j, i, b, a];
        split_and!; try done; lia. }
  exists h. split_and!; [done|done| |].
  - intros x. rewrite HV. setoid_rewrite Hrp. naive_solver.
  - intros x y. by rewrite HE, Hrp.
Qed.

(** ** Grids *)
(** [cell t r c x]: [x] is the label of row [r], column [c]. *)
Definition grid_adj (s t x y : N) : Prop :=
  ∃ r c, (r < s)%N ∧ (c < t)%N ∧ (x = r * t + c)%N ∧
    ((y = r * t + (c + 1) ∧ c + 1 < t)%N ∨ (y = (r + 1) * t + c ∧ r + 1 < s)%N).

Lemma eg_grid_spec s t :
  (s * t < 4294967296)%N →
  ∃ g, eg_grid s t = Ok g ∧ eg_wf g ∧
    (∀ x, ev g x ↔ (x < s * t)%N ∧ (s * t ≠ 1)%N) ∧
    (∀ x y, ea g x y ↔ grid_adj s t x y ∨ grid_adj s t y x).
Proof.
  intros Hst. unfold eg_grid.
  destruct (N.eqb_spec s 0) as [->|Hs]; cbn [orb].
  { exists eg_new. split_and!; [done|apply eg_new_wf| |].
    - intros x. pose proof (eg_new_ev x). split; [done|lia].
    - intros x y. pose proof (eg_new_ea x y). split; [done|].
      intros [(r&c&?&?&_)|(r&c&?&?&_)]; lia. }
  destruct (N.eqb_spec t 0) as [->|Ht].
  { exists eg_new. split_and!; [done|apply eg_new_wf| |].
    - intros x. pose proof (eg_new_ev x). split; [done|lia].
    - intros x y. pose proof (eg_new_ea x y). split; [done|].
      intros [(r&c&?&?&_)|(r&c&?&?&_)]; lia. }
  assert (∀ r c, r < s → c < t → r * t + c < s * t)%N as Hb by (intros; nia).
  pose (rowE := λ y x z : N, (∃ a, a ∈ range 0 (t - 1) ∧
        (((x = y * t + a ∧ z = y * t + (a + 1)) ∨ (x = y * t + (a + 1) ∧ z = y * t + a)) ∨
         ((x = y * t + a ∧ z = (y + 1) * t + a) ∨ (x = (y + 1) * t + a ∧ z = y * t + a))))%N).
  pose (lastE := λ y x z : N, ((x = y * t + (t - 1) ∧ z = (y + 1) * t + (t - 1)) ∨
                               (x = (y + 1) * t + (t - 1) ∧ z = y * t + (t - 1)))%N).
  assert (adds (λ h, h ← fold_res (λ h y,
          h ← fold_res (λ h x,
                let u := u32 (y * t + x) in
                r ← eg_add_edge h u (u32 (u + 1));
                r' ← eg_add_edge r.1 u (u32 (u + t));
                Ok r'.1) (range 0 (t - 1)) h;
          let u := u32 (y * t + t - 1) in
          r ← eg_add_edge h u (u32 (u + t));
          Ok r.1) (range 0 (s - 1)) h;
    fold_res (λ h x,
        let u := u32 ((s - 1) * t + x) in
        r ← eg_add_edge h u (u32 (u + 1));
        Ok r.1) (range 0 (t - 1)) h)
     (λ x, ∃ z, (∃ y, y ∈ range 0 (s - 1) ∧ (rowE y x z ∨ lastE y x z)) ∨
        (∃ a, a ∈ range 0 (t - 1) ∧
            ((x = (s - 1) * t + a ∧ z = (s - 1) * t + (a + 1)) ∨
             (x = (s - 1) * t + (a + 1) ∧ z = (s - 1) * t + a))%N))
     (λ x z, (∃ y, y ∈ range 0 (s - 1) ∧ (rowE y x z ∨ lastE y x z)) ∨
        (∃ a, a ∈ range 0 (t - 1) ∧
            ((x = (s - 1) * t + a ∧ z = (s - 1) * t + (a + 1)) ∨
             (x = (s - 1) * t + (a + 1) ∧ z = (s - 1) * t + a))%N))) as H.
  { apply (adds_seq_ext (fold_res _ (range 0 (s - 1))) _
       (λ x, ∃ y, y ∈ range 0 (s - 1) ∧ ∃ z, rowE y x z ∨ lastE y x z)
       (λ x z, ∃ y, y ∈ range 0 (s - 1) ∧ (rowE y x z ∨ lastE y x z))
       (λ x, ∃ a, a ∈ range 0 (t - 1) ∧ (x = (s - 1) * t + a ∨ x = (s - 1) * t + (a + 1))%N)
       (λ x z, ∃ a, a ∈ range 0 (t - 1) ∧ ((x = (s - 1) * t + a ∧ z = (s - 1) * t + (a + 1)) ∨
             (x = (s - 1) * t + (a + 1) ∧ z = (s - 1) * t + a))%N)).
    - apply (adds_fold _ _ (λ y x, ∃ z, rowE y x z ∨ lastE y x z)
                 (λ y x z, rowE y x z ∨ lastE y x z)).
      intros y Hy. rewrite elem_of_range in Hy.
      apply (adds_seq_ext (fold_res _ (range 0 (t - 1))) _
             (λ x, ∃ z, rowE y x z) (rowE y) (λ x, ∃ z, lastE y x z) (lastE y)).
      + apply (adds_fold_ext _ _ (λ a x, (x = y * t + a ∨ x = y * t + (a + 1)) ∨ (x = y * t + a ∨ x = (y + 1) * t + a))%N
                  (λ a x z, (((x = y * t + a ∧ z = y * t + (a + 1)) ∨ (x = y * t + (a + 1) ∧ z = y * t + a)) ∨
         ((x = y * t + a ∧ z = (y + 1) * t + a) ∨ (x = (y + 1) * t + a ∧ z = y * t + a))))%N).
        * intros a Ha. rewrite elem_of_range in Ha.
          assert (y * t + a < s * t)%N by (apply Hb; lia).
          assert (y * t + (a + 1) < s * t)%N by (apply Hb; lia).
          assert ((y + 1) * t + a < s * t)%N by (apply Hb; lia).
          rewrite (u32_small (y * t + a)) by lia. cbv zeta.
          rewrite (u32_small (y * t + a + 1)) by lia.
          rewrite (u32_small (y * t + a + t)) by lia.
          replace (y * t + a + 1)%N with (y * t + (a + 1))%N by lia.
          replace (y * t + a + t)%N with ((y + 1) * t + a)%N by lia.
          eapply adds_ext; [apply (adds_seq _ _ _ _ _ _ (adds_edge (y * t + a) (y * t + (a + 1)))
                     (adds_edge (y * t + a) ((y + 1) * t + a)))| |done|done].
          intros h. cbv beta. by destruct (eg_add_edge h (y * t + a) (y * t + (a + 1))) as [[]| |].

        * intros x. unfold rowE. split.
          -- intros (a & Ha & [[->| ->]|[->| ->]]); eexists; exists a; (split; [done|]); eauto 10.
          -- intros (z & a & Ha & [[[-> ->]|[-> ->]]|[[-> ->]|[-> ->]]]); exists a; auto.
        * done.
      + assert (y * t + (t - 1) < s * t)%N by (apply Hb; lia).
        assert ((y + 1) * t + (t - 1) < s * t)%N by (apply Hb; lia).
        rewrite (u32_small (y * t + t - 1)) by lia. cbv zeta.
        rewrite (u32_small (y * t + t - 1 + t)) by lia.
        replace (y * t + t - 1)%N with (y * t + (t - 1))%N by lia.
        replace (y * t + (t - 1) + t)%N with ((y + 1) * t + (t - 1))%N by lia.
        eapply adds_ext; [apply adds_edge|done| |done].
        intros x. cbv beta. unfold lastE. split; [|naive_solver].
        intros [->| ->]; eexists; eauto.
      + intros x. naive_solver.
      + done.
    - apply (adds_fold _ _ (λ a x, x = (s - 1) * t + a ∨ x = (s - 1) * t + (a + 1))%N
           (λ a x z, ((x = (s - 1) * t + a ∧ z = (s - 1) * t + (a + 1)) ∨
             (x = (s - 1) * t + (a + 1) ∧ z = (s - 1) * t + a))%N)).
      intros a Ha. rewrite elem_of_range in Ha.
      assert ((s - 1) * t + a < s * t)%N by (apply Hb; lia).
      assert ((s - 1) * t + (a + 1) < s * t)%N by (apply Hb; lia).
      rewrite (u32_small ((s - 1) * t + a)) by lia. cbv zeta.
      rewrite (u32_small ((s - 1) * t + a + 1)) by lia.
      replace ((s - 1) * t + a + 1)%N with ((s - 1) * t + (a + 1))%N by lia.
      apply adds_edge.
    - intros x. split.
      + intros [(y & Hy & z & ?)|(a & Ha & [->| ->])]; [eauto 10|..]; eexists; right; exists a; eauto.
      + intros (z & [(y & Hy & ?)|(a & Ha & [[-> ->]|[-> ->]])]); eauto 10.
    - done. }
  from_adds. exists h. 
  assert (∀ x z, ((∃ y, y ∈ range 0 (s - 1) ∧ (rowE y x z ∨ lastE y x z)) ∨
        (∃ a, a ∈ range 0 (t - 1) ∧
            ((x = (s - 1) * t + a ∧ z = (s - 1) * t + (a + 1)) ∨
             (x = (s - 1) * t + (a + 1) ∧ z = (s - 1) * t + a))%N))
      ↔ grid_adj s t x z ∨ grid_adj s t z x) as Hg.
  { intros x z. unfold rowE, lastE, grid_adj. setoid_rewrite elem_of_range. split.
    - intros [(y & ? & [(a & ? & [[[-> ->]|[-> ->]]|[[-> ->]|[-> ->]]])|[[-> ->]|[-> ->]]])|(a & ? & [[-> ->]|[-> ->]])].
      + left. exists y, a. split_and!; [lia..|]. left. split; [lia|lia].
      + right. exists y, a. split_and!; [lia..|]. left. split; [lia|lia].
      + left. exists y, a. split_and!; [lia..|]. right. split; [lia|lia].
      + right. exists y, a. split_and!; [lia..|]. right. split; [lia|lia].
      + left. exists y, (t - 1)%N. split_and!; [lia..|]. right. split; [lia|lia].
      + right. exists y, (t - 1)%N. split_and!; [lia..|]. right. split; [lia|lia].
      + left. exists (s - 1)%N, a. split_and!; [lia..|]. left. split; [lia|lia].
      + right. exists (s - 1)%N, a. split_and!; [lia..|]. left. split; [lia|lia].
    - intros [(r & c & ? & ? & -> & [[-> ?]|[-> ?]])|(r & c & ? & ? & -> & [[-> ?]|[-> ?]])].
      + destruct (decide (r = s - 1)%N) as [->|].
        * right. exists c. split; [lia|]. left. lia.
        * left. exists r. split; [lia|]. left. exists c. split; [lia|]. left. left. lia.
      + left. exists r. split; [lia|]. destruct (decide (c = t - 1)%N) as [->|].
        * right. left. lia.
        * left. exists c. split; [lia|]. right. left. lia.
      + destruct (decide (r = s - 1)%N) as [->|].
        * right. exists c. split; [lia|]. right. lia.
        * left. exists r. split; [lia|]. left. exists c. split; [lia|]. left. right. lia.
      + left. exists r. split; [lia|]. destruct (decide (c = t - 1)%N) as [->|].
        * right. right. lia.
        * left. exists c. split; [lia|]. right. right. lia. }
  split_and!; [exact Hok|done| |].
  - intros x. rewrite HV. setoid_rewrite Hg. split.
    + intros (z & [(r & c & ? & ? & -> & [[-> ?]|[-> ?]])|(r & c & ? & ? & -> & [[-> ?]|[-> ?]])]); nia.
    + intros [Hx Hne]. set (r := (x / t)%N). set (c := (x mod t)%N).
      assert (x = r * t + c)%N as Hxe by (unfold r, c; rewrite (N.mul_comm _ t); apply N.div_mod; lia).
      assert (c < t)%N as Hc by (apply N.mod_lt; lia).
      assert (r < s)%N as Hr by (unfold r; apply N.div_lt_upper_bound; lia).
      clearbody r c.
      destruct (decide (c + 1 < t)%N).
      { exists (r * t + (c + 1))%N. left. exists r, c. split_and!; [lia..|]. left. lia. }
      destruct (decide (0 < c)%N).
      { exists (r * t + (c - 1))%N. right. exists r, (c - 1)%N. split_and!; [lia..|]. left. lia. }
      destruct (decide (r + 1 < s)%N).
      { exists ((r + 1) * t + c)%N. left. exists r, c. split_and!; [lia..|]. right. lia. }
      destruct (decide (0 < r)%N).
      { exists ((r - 1) * t + c)%N. right. exists (r - 1)%N, c. split_and!; [lia..|]. right.
        replace (r - 1 + 1)%N with r by lia. lia. }
      exfalso. assert (t = 1)%N by lia. assert (s = 1)%N by lia. subst. lia.
  - intros x y. by rewrite HE, Hg.
Qed.
