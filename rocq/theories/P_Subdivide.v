(** Proofs about [subdivide], and the handshake equation for [graph_wf] graphs. *)
From Verif Require Import Base Spec M_Graph M_Iterators M_EditGraph M_Operations S_Graph S_Multi
  P_EditGraph P_EditGraph2 P_Graph P_Iterators P_Adds P_Generators P_Unions P_Degeneracy.

(** ** Handshake *)
Lemma length_size {A} `{Countable A} (l : list A) : NoDup l → length l = size (list_to_set (C:=gset A) l).
Proof. intros. by rewrite size_list_to_set. Qed.

Lemma filter_pair_size {A} `{Countable A} (l : list A) (f : A → N * N) (X : gset (N * N)) :
  NoDup l → Inj eq eq f → (∀ p, p ∈ X ↔ ∃ x, x ∈ l ∧ p = f x) → size X = length l.
Proof.
  intros Hl Hf HX. rewrite <- (fmap_length f l), (length_size (f <$> l)) by (by apply NoDup_fmap_2).
  f_equal. apply set_eq. intros p. rewrite HX, elem_of_list_to_set, elem_of_list_fmap. naive_solver.
Qed.

Lemma degree_split (l : list N) u : NoDup l →
  length l + (if decide (u ∈ l) then 1 else 0) =
  length (filter (λ v, (u <= v)%N) l) + length (filter (λ v, (v <= u)%N) l).
Proof.
  induction 1 as [|x l Hx Hl IH]; [done|].
  rewrite !filter_cons. destruct (decide (u = x)) as [->|Hne].
  - rewrite !decide_True by (set_solver || lia). rewrite decide_False in IH by done. cbn. lia.
  - assert ((if decide (u ∈ x :: l) then 1 else 0) = (if decide (u ∈ l) then 1 else 0)) as ->.
    { destruct (decide (u ∈ l)) as [Hu|Hu]; [rewrite decide_True by (by right)|rewrite decide_False by (by apply not_elem_of_cons)]; done. }
    destruct (decide (u <= x)%N), (decide (x <= u)%N); try lia; cbn; lia.
Qed.

Lemma graph_handshake G : graph_wf G → sum_map (degree G) (vertices G) = 2 * num_edges G.
Proof.
  intros Hwf. destruct (wf_num_edges _ Hwf) as (E & HE & ->).
  set (A := AGraph (list_to_set (vertices G)) E).
  trans (sum_map (a_degree A) (vertices G)); [|apply (a_handshake A)].
  - apply sum_map_ext. intros u Hu%(wf_vertices _ Hwf).
    destruct (wf_neighbours _ Hwf u Hu) as (l & _ & Hnd & Hin & ->).
    replace (if adjacent G u u then 1 else 0) with (if decide (u ∈ l) then 1 else 0).
    2:{ specialize (Hin u). unfold adj in Hin. destruct (decide (u ∈ l)), (adjacent G u u); naive_solver. }
    rewrite degree_split by done. unfold a_degree. f_equal.
    + symmetry. eapply (filter_pair_size _ (λ v, (u, v))); [by apply NoDup_filter|by intros ?? [=]|].
      intros [a b]. rewrite elem_of_filter. cbn. rewrite HE. setoid_rewrite elem_of_list_filter. setoid_rewrite Hin. split.
      * intros (-> & ? & ?). eauto.
      * intros (x & [? ?] & [= -> ->]). auto.
    + symmetry. eapply (filter_pair_size _ (λ v, (v, u))); [by apply NoDup_filter|by intros ?? [=]|].
      intros [a b]. rewrite elem_of_filter. cbn. rewrite HE. setoid_rewrite elem_of_list_filter. setoid_rewrite Hin. split.
      * intros (-> & ? & ?). exists a. split_and!; [done|by apply (wf_adj_sym _ Hwf)|done].
      * intros (x & [? ?] & [= -> ->]). split_and!; [done|done|by apply (wf_adj_sym _ Hwf)].
  - intros [a b] He. cbn in He. apply HE in He as [Hle Hab]. cbn. split_and!; [done| |].
    + apply elem_of_list_to_set, (wf_vertices _ Hwf). by eapply (wf_adj_vtx _ Hwf).
    + apply elem_of_list_to_set, (wf_vertices _ Hwf). by eapply (wf_adj_vtx _ Hwf), (wf_adj_sym _ Hwf).
  - apply Hwf.
  - intros u. cbn. by rewrite elem_of_list_to_set.
Qed.

(** ** Consecutive entries *)
Lemma consec_cons {A} (z : A) l x y : consec (z :: l) x y ↔ (x = z ∧ head l = Some y) ∨ consec l x y.
Proof.
  unfold consec. split.
  - intros ([|i] & H1 & H2); cbn in *.
    + left. split; [congruence|]. by destruct l.
    + right. eauto.
  - intros [[-> H]|(i & H1 & H2)].
    + exists 0. cbn. split; [done|]. by destruct l.
    + exists (S i). auto.
Qed.
Lemma consec_nil {A} (x y : A) : ¬ consec [] x y.
Proof. by intros (i & ? & _). Qed.

Lemma consec_nrange n : ∀ a v x y,
  consec (nrange a (S n) ++ [v]) x y ↔
  ((a <= x)%N ∧ (x < a + N.of_nat n)%N ∧ y = (x + 1)%N) ∨ (x = (a + N.of_nat n)%N ∧ y = v).
Proof.
  induction n as [|n IH]; intros a v x y.
  - cbn. rewrite !consec_cons. cbn. pose proof (@consec_nil N x y). split.
    + intros [[-> [= ->]]|[[_ ?]|?]]; [|done|done]. right. split; [lia|done].
    + intros [(? & ? & ?)|[-> ->]]; [lia|]. left. split; [lia|done].
  - change (nrange a (S (S n)) ++ [v]) with (a :: (nrange (N.succ a) (S n) ++ [v])).
    rewrite consec_cons, IH. cbn [nrange app head]. split.
    + intros [[-> [= <-]]|[(? & ? & ?)|[? ?]]]; [left|left|right]; split_and?; lia || done.
    + intros [(? & ? & ?)|[? ?]]; [destruct (decide (x = a)) as [->|]; [left|right; left]|right; right]; split_and?; try lia; try done.
      f_equal. lia.
Qed.

(** The path replacing an edge. *)
Definition sub_path (b k : N) (i : nat) (e : N * N) : list N :=
  e.1 :: range (b + N.of_nat i * k) (b + N.of_nat (S i) * k) ++ [e.2].

Lemma consec_sub_path b k i e x y : (0 < k)%N →
  consec (sub_path b k i e) x y ↔
    (x = e.1 ∧ y = b + N.of_nat i * k)%N ∨
    (b + N.of_nat i * k <= x ∧ x + 1 < b + N.of_nat (S i) * k ∧ y = x + 1)%N ∨
    (x + 1 = b + N.of_nat (S i) * k ∧ y = e.2)%N.
Proof.
  intros Hk. unfold sub_path, range.
  destruct (N.to_nat (b + N.of_nat (S i) * k - (b + N.of_nat i * k))) as [|n] eqn:En; [nia|].
  rewrite consec_cons, consec_nrange. cbn [nrange app head].
  assert (N.of_nat n + 1 = k)%N as Hn by nia. split.
  - intros [[-> [= <-]]|[(? & ? & ?)|[-> ->]]]; [auto|right; left|right; right]; split_and?; nia || done.
  - intros [[-> ->]|[(? & ? & ?)|[? ->]]]; [auto|right; left|right; right]; split_and?; nia || done.
Qed.
Lemma consec_sub_path_0 b i e x y : consec (sub_path b 0 i e) x y ↔ x = e.1 ∧ y = e.2.
Proof.
  unfold sub_path, range. replace (N.to_nat _) with 0 by lia. cbn. rewrite !consec_cons. cbn.
  pose proof (@consec_nil N x y). split; [|naive_solver]. intros [[-> [= ->]]|[[_ ?]|?]]; done.
Qed.

Lemma elem_of_sub_path b k i e x : x ∈ sub_path b k i e ↔
  x = e.1 ∨ x = e.2 ∨ (b + N.of_nat i * k <= x ∧ x < b + N.of_nat (S i) * k)%N.
Proof.
  unfold sub_path. rewrite elem_of_cons, elem_of_app, elem_of_range, elem_of_list_singleton. naive_solver.
Qed.

(** ** The loops *)
Lemma adds_subdivide_edge G v ss : ∀ last, (∀ s, s ∈ ss → ¬ vtx G s) →
  adds (subdivide_edge G last v ss) (λ x, x ∈ last :: ss ++ [v])
    (λ x y, consec (last :: ss ++ [v]) x y ∨ consec (last :: ss ++ [v]) y x).
Proof.
  induction ss as [|s ss IH]; intros last Hss.
  - eapply adds_ext; [apply (adds_edge last v)|done| |].
    + intros x. cbn. rewrite !elem_of_cons. set_solver.
    + intros x y. cbn. rewrite !consec_cons. cbn. pose proof (@consec_nil N x y). pose proof (@consec_nil N y x). naive_solver.
  - eapply adds_ext; [apply (adds_seq _ _ _ _ _ _ (adds_edge last s) (IH s ltac:(set_solver)))| | |].
    + intros h. cbv beta. cbn [subdivide_edge]. unfold assert_res.
      destruct (contains G s) eqn:Hc; [exfalso; apply (Hss s); [set_solver|done]|]. cbn [negb mbind res_bind].
      destruct (eg_add_edge h last s); done.
    + intros x. cbn. rewrite !elem_of_cons. naive_solver.
    + intros x y. cbn [app]. rewrite (consec_cons last), (consec_cons last). cbn [head].
      split; [|naive_solver]. naive_solver.
Qed.

Lemma adds_subdivide_loop G k es : ∀ f,
  (f + N.of_nat (length es) * k < 4294967296)%N →
  (∀ s, (f <= s ∧ s < f + N.of_nat (length es) * k)%N → ¬ vtx G s) →
  adds (λ h, r ← fold_res (λ r e,
        h ← subdivide_edge G e.1 e.2 (range r.2 (u32 (r.2 + k))) r.1;
        Ok (h, u32 (r.2 + k))) es (h, f); Ok r.1)
    (λ x, ∃ i e, es !! i = Some e ∧ x ∈ sub_path f k i e)
    (λ x y, ∃ i e, es !! i = Some e ∧ (consec (sub_path f k i e) x y ∨ consec (sub_path f k i e) y x)).
Proof.
  induction es as [|e es IH]; intros f Hb Hf.
  - eapply adds_ext; [apply adds_ret|done|set_solver|set_solver].
  - cbn [length] in Hb, Hf.
    assert (∀ i e', sub_path (f + k) k i e' = sub_path f k (S i) e') as Hsh.
    { intros i e'. unfold sub_path. do 3 f_equal; lia. }
    assert (∀ e', sub_path f k 0 e' = e'.1 :: range f (f + k) ++ [e'.2]) as H0.
    { intros e'. unfold sub_path. do 3 f_equal; lia. }
    assert (∀ s, s ∈ range f (f + k) → ¬ vtx G s) as P1.
    { intros s Hs%elem_of_range. apply Hf. nia. }
    assert (f + k + N.of_nat (length es) * k < 4294967296)%N as P2 by nia.
    assert (∀ s, (f + k <= s ∧ s < f + k + N.of_nat (length es) * k)%N → ¬ vtx G s) as P3.
    { intros s Hs. apply Hf. nia. }
    eapply adds_ext; [apply (adds_seq _ _ _ _ _ _ (adds_subdivide_edge G e.2 (range f (f + k)) e.1 P1) (IH (f + k)%N P2 P3))| | |].
    + intros h. cbv beta. cbn [fold_res fst snd]. rewrite u32_small by nia.
      destruct (subdivide_edge G e.1 e.2 (range f (f + k)) h); done.
    + intros x. cbv beta. split.
      * intros [Hx|(i & e' & Hi & Hx)]; [exists 0, e|exists (S i), e']; (split; [done|]); [by rewrite H0|by rewrite <- Hsh].
      * intros ([|i] & e' & Hi & Hx); cbn in Hi; [left|right].
        -- injection Hi as <-. by rewrite H0 in Hx.
        -- exists i, e'. by rewrite Hsh.
    + intros x y. cbv beta. split.
      * intros [Hx|(i & e' & Hi & Hx)]; [exists 0, e|exists (S i), e']; (split; [done|]); [by rewrite H0|by rewrite <- Hsh].
      * intros ([|i] & e' & Hi & Hx); cbn in Hi; [left|right].
        -- injection Hi as <-. by rewrite H0 in Hx.
        -- exists i, e'. by rewrite Hsh.
Qed.

Lemma max_fold_spec l : ∀ (h : editgraph) m,
  let s := foldl (λ s u, ((eg_add_vertex s.1 u).1, N.max s.2 u)) (h, m) l in
  s.1 = foldl (λ h u, (eg_add_vertex h u).1) h l ∧
  (m <= s.2)%N ∧ (∀ u, u ∈ l → (u <= s.2)%N) ∧ (s.2 = m ∨ s.2 ∈ l).
Proof.
  induction l as [|a l IH]; intros h m; cbn [foldl fst snd].
  - split_and!; [done|cbn; lia|set_solver|by left].
  - destruct (IH (eg_add_vertex h a).1 (N.max m a)) as (H1 & H2 & H3 & H4). cbv zeta.
    set (s := foldl _ _ l) in *. clearbody s. split_and!; [done|lia| |].
    + intros u [->|Hu]%elem_of_cons; [lia|by apply H3].
    + destruct H4 as [->|?]; [|by right; right].
      destruct (N.max_spec m a) as [[_ ->]|[_ ->]]; [right; left|by left].
Qed.

Section with_iter.
Context `{HI : HashIter}.

Lemma subdivide_gen G k es : weak_wf G → edges G = Ok es → (∀ u v, (u, v) ∈ es ↔ (u <= v)%N ∧ adj G u v) →
  (∀ v, vtx G v → (v + 1 + N.of_nat (length es) * k < 4294967296)%N) →
  ∃ h b, subdivide G k = Ok h ∧ eg_wf h ∧ (∀ v, vtx G v → (v < b)%N) ∧
    (∀ x, ev h x ↔ vtx G x ∨ (b <= x ∧ x < b + N.of_nat (length es) * k)%N) ∧
    (∀ x y, ea h x y ↔ ∃ i e, es !! i = Some e ∧
       (consec (sub_path b k i e) x y ∨ consec (sub_path b k i e) y x)).
Proof.
  intros Hwf Hedg Hes Hov. unfold subdivide.
  destruct (max_fold_spec (vertices G) eg_new 0%N) as (Hs1 & _ & Hmax & Hat). cbv zeta.
  set (s := foldl _ _ (vertices G)) in *. clearbody s.
  rewrite Hedg. cbn [mbind res_bind].
  assert (s.2 + 1 + N.of_nat (length es) * k < 4294967296)%N as Hb.
  { destruct Hat as [->|Hat]; [|apply Hov; by apply (ww_vertices _ Hwf)].
    destruct (vertices G) as [|v ?] eqn:Ev.
    - destruct es as [|[u v] es]; [cbn; lia|]. exfalso.
      assert (u ∈ vertices G) as Hu; [|rewrite Ev in Hu; set_solver].
      apply (ww_vertices _ Hwf), (ww_adj_vtx _ Hwf u v), (Hes u v). set_solver.
    - specialize (Hov v). feed specialize Hov; [apply (ww_vertices _ Hwf); rewrite Ev; set_solver|lia]. }
  rewrite u32_small by nia.
  pose proof (adds_subdivide_loop G k es (s.2 + 1)%N) as HA.
  feed specialize HA. { done. }
  { intros x Hx Hv%(ww_vertices _ Hwf). apply Hmax in Hv. lia. }
  pose proof (adds_seq _ _ _ _ _ _ (adds_vertices (vertices G)) HA) as HB. cbn [mbind res_bind] in HB.
  apply adds_new in HB as (h & Hok & Hh & HV & HE).
  assert (∀ v, vtx G v → (v < s.2 + 1)%N) as Hlt.
  { intros v Hv%(ww_vertices _ Hwf). apply Hmax in Hv. lia. }
  exists h, (s.2 + 1)%N. split_and!; try done.
  - by rewrite Hs1.
  - intros x. rewrite HV, (ww_vertices _ Hwf). split.
    + intros [?|(i & [u v] & Hi & Hx)]; [by left|]. rewrite elem_of_sub_path in Hx.
      assert ((u, v) ∈ es) as Huv by (by eapply elem_of_list_lookup_2). apply Hes in Huv as [_ Huv].
      apply lookup_lt_Some in Hi. cbn [fst snd] in Hx.
      destruct Hx as [->|[->|Hx]]; [left; by eapply (ww_adj_vtx _ Hwf)| |].
      2:{ right. assert (N.of_nat (S i) * k <= N.of_nat (length es) * k)%N by (apply N.mul_le_mono_r; lia). lia. }
      left. by eapply (ww_adj_vtx _ Hwf), (ww_adj_sym _ Hwf).
    + intros [?|Hx]; [by left|]. right.
      assert (0 < k)%N as Hk by nia.
      assert (N.to_nat ((x - (s.2 + 1)) / k) < length es) as Hi.
      { assert ((x - (s.2 + 1)) / k < N.of_nat (length es))%N; [|lia].
        apply N.div_lt_upper_bound; nia. }
      apply lookup_lt_is_Some in Hi as [e He]. exists (N.to_nat ((x - (s.2 + 1)) / k)), e. split; [done|].
      apply elem_of_sub_path. right; right.
      rewrite Nat2N.inj_succ, N2Nat.id.
      pose proof (N.div_mod' (x - (s.2 + 1)) k) as H1. pose proof (N.mod_upper_bound (x - (s.2 + 1)) k ltac:(lia)) as H2.
      rewrite N.mul_succ_l, (N.mul_comm _ k). generalize dependent ((x - (s.2 + 1)) / k)%N.
      generalize dependent ((x - (s.2 + 1)) mod k)%N. intros r Hr q _ Hq. clear -Hx Hr Hq. lia.
  - intros x y. rewrite HE. naive_solver.
Qed.
Lemma subdivide_spec G k : graph_wf G →
  (∀ v, vtx G v → (v + 1 + N.of_nat (num_edges G) * k < 4294967296)%N) →
  ∃ h es b, subdivide G k = Ok h ∧ eg_wf h ∧ NoDup es ∧ length es = num_edges G ∧
    (∀ u v, (u, v) ∈ es ↔ (u <= v)%N ∧ adj G u v) ∧ (∀ v, vtx G v → (v < b)%N) ∧
    (∀ x, ev h x ↔ vtx G x ∨ (b <= x ∧ x < b + N.of_nat (num_edges G) * k)%N) ∧
    (∀ x y, ea h x y ↔ ∃ i e, es !! i = Some e ∧
       (consec (sub_path b k i e) x y ∨ consec (sub_path b k i e) y x)).
Proof.
  intros Hwf Hov. destruct (edges_spec G Hwf) as (es & Hedg & Hnd & Hes & Hlen). rewrite <- Hlen in Hov |- *.
  destruct (subdivide_gen G k es (graph_wf_weak G Hwf) Hedg Hes Hov) as (h & b & Hok & Hh & Hb & HV & HE).
  exists h, es, b. split_and!; assumption || done.
Qed.

(** ** Counting *)
Section counting.
Context (G : graph) (Hwf : graph_wf G) (Hloop : loopless G) (k : N) (Hk : (0 < k)%N).
Context (es : list (N * N)) (Hnd : NoDup es) (Hes : ∀ u v, (u, v) ∈ es ↔ (u <= v)%N ∧ adj G u v).
Context (b : N) (Hb : ∀ v, vtx G v → (v < b)%N).
Context (R : N → N → Prop).
Context (HR : ∀ x y, R x y ↔ ∃ i e, es !! i = Some e ∧
       (consec (sub_path b k i e) x y ∨ consec (sub_path b k i e) y x)).

Lemma es_vtx i u v : es !! i = Some (u, v) → vtx G u ∧ vtx G v ∧ (u < v)%N ∧ adj G u v.
Proof.
  intros Hi%elem_of_list_lookup_2. apply Hes in Hi as [Hle Huv]. split_and!; [by eapply (wf_adj_vtx _ Hwf)| | |done].
  - by eapply (wf_adj_vtx _ Hwf), (wf_adj_sym _ Hwf).
  - destruct (decide (u = v)) as [->|]; [|lia]. by apply Hloop in Huv.
Qed.

(** Neighbours of an inner vertex. *)
Lemma sub_inner x l : NoDup l → (∀ y, y ∈ l ↔ R x y) →
  (b <= x ∧ x < b + N.of_nat (length es) * k)%N → length l = 2.
Proof.
  intros Hl HlR Hx.
  set (i := N.to_nat ((x - b) / k)).
  pose proof (N.div_mod' (x - b) k) as Hdm. pose proof (N.mod_upper_bound (x - b) k ltac:(lia)) as Hmu.
  assert (i < length es) as Hi.
  { unfold i. assert ((x - b) / k < N.of_nat (length es))%N; [|lia]. apply N.div_lt_upper_bound; nia. }
  apply lookup_lt_is_Some in Hi as [[u v] Hi].
  destruct (es_vtx _ _ _ Hi) as (Hu%Hb & Hv%Hb & Huv & _).
  assert (∀ j, (b + N.of_nat j * k <= x ∧ x < b + N.of_nat (S j) * k)%N → j = i) as Huniq.
  { intros j Hj. unfold i. assert ((x - b) / k = N.of_nat j)%N as ->; [|lia].
    symmetry. apply (N.div_unique _ _ _ (x - b - N.of_nat j * k)); nia. }
  assert (b + N.of_nat i * k <= x ∧ x < b + N.of_nat (S i) * k)%N as Hxi.
  { unfold i. rewrite Nat2N.inj_succ, N2Nat.id, N.mul_succ_l, (N.mul_comm _ k). clear -Hx Hdm Hmu.
    generalize dependent ((x - b) / k)%N. generalize dependent ((x - b) mod k)%N. intros. lia. }
  clearbody i. clear Hdm Hmu.
  set (p := if decide (x = b + N.of_nat i * k)%N then u else (x - 1)%N).
  set (q := if decide (x + 1 = b + N.of_nat (S i) * k)%N then v else (x + 1)%N).
  assert (l ≡ₚ [p; q]) as ->; [|done].
  apply NoDup_Permutation; [done| |].
  - apply NoDup_cons. split; [|apply NoDup_singleton]. rewrite elem_of_list_singleton. unfold p, q. repeat case_decide; lia.
  - intros y. rewrite HlR, HR, !elem_of_cons. split.
    + intros (j & [u' v'] & Hj & Hc). destruct (es_vtx _ _ _ Hj) as (Hu'%Hb & Hv'%Hb & _).
      rewrite !consec_sub_path in Hc by done. cbn [fst snd] in Hc.
      assert (j = i) as ->. { apply Huniq. nia. }
      rewrite Hi in Hj. injection Hj as <- <-.
      destruct Hc as [[[? ?]|[(? & ? & Hy)|[? Hy]]]|[[Hy ?]|[(? & ? & ?)|[? ?]]]]; try (exfalso; nia).
      * right; left. unfold q. rewrite decide_False by lia. lia.
      * right; left. unfold q. by rewrite decide_True by lia.
      * left. unfold p. by rewrite decide_True by lia.
      * left. unfold p. rewrite decide_False by nia. lia.
    + intros Hy. exists i, (u, v). split; [done|]. rewrite !consec_sub_path by done. cbn [fst snd].
      destruct Hy as [->|[->|[]%elem_of_nil]].
      * right. unfold p. case_decide; [by left|]. right; left. split_and!; lia.
      * left. unfold q. case_decide; [by right; right|]. right; left. split_and!; lia.
Qed.

(** Neighbours of an original vertex. *)
Lemma sub_orig x l l0 : NoDup l → (∀ y, y ∈ l ↔ R x y) → NoDup l0 → (∀ y, y ∈ l0 ↔ adj G x y) →
  vtx G x → length l = length l0.
Proof.
  intros Hl HlR Hl0 HlG Hx. pose proof (Hb x Hx) as Hxb.
  set (I := filter (λ i, match es !! i with Some e => bool_decide (x = e.1 ∨ x = e.2) | None => false end = true) (seq 0 (length es))).
  assert (∀ i, i ∈ I ↔ ∃ e, es !! i = Some e ∧ (x = e.1 ∨ x = e.2)) as HII.
  { intros i. unfold I. rewrite elem_of_list_filter, elem_of_seq. split.
    - intros [Hi _]. destruct (es !! i) as [e|]; [|done]. apply bool_decide_eq_true in Hi. eauto.
    - intros (e & He & ?). rewrite He, bool_decide_eq_true. split; [done|]. apply lookup_lt_Some in He. lia. }
  assert (NoDup I) as HIn by (apply NoDup_filter, NoDup_seq).
  set (f := λ i, match es !! i with
                 | Some e => if decide (x = e.1) then (b + N.of_nat i * k)%N else (b + N.of_nat (S i) * k - 1)%N
                 | None => 0%N end).
  set (g := λ i, match es !! i with Some e => if decide (x = e.1) then e.2 else e.1 | None => 0%N end).
  assert (l ≡ₚ f <$> I) as ->.
  { apply NoDup_Permutation; [done| |].
    - apply NoDup_fmap_2_strong; [|done]. intros i j (e & Hi & He)%HII (e' & Hj & He')%HII. unfold f. rewrite Hi, Hj.
      repeat case_decide; intros; nia.
    - intros y. rewrite HlR, HR, elem_of_list_fmap. split.
      + intros (i & [u v] & Hi & Hc). destruct (es_vtx _ _ _ Hi) as (Hu%Hb & Hv%Hb & Huv & _).
        rewrite !consec_sub_path in Hc by done. cbn [fst snd] in Hc. exists i. unfold f. rewrite Hi. cbn [fst snd].
        destruct Hc as [[[? ?]|[(? & ? & ?)|[? ?]]]|[[? ?]|[(? & ? & ?)|[? ?]]]]; subst; try nia.
        * rewrite decide_True by done. split; [done|]. apply HII. eexists; split; [done|]. by left.
        * rewrite decide_False by lia. split; [lia|]. apply HII. eexists; split; [done|]. by right.
      + intros (i & -> & ([u v] & Hi & He)%HII). exists i, (u, v). split; [done|].
        unfold f. rewrite Hi. cbn [fst snd] in *. rewrite !consec_sub_path by done. cbn [fst snd].
        case_decide; [left; by left|]. right; right; right. split; [nia|naive_solver]. }
  assert (l0 ≡ₚ g <$> I) as ->.
  { apply NoDup_Permutation; [done| |].
    - apply NoDup_fmap_2_strong; [|done]. intros i j ([u v] & Hi & He)%HII ([u' v'] & Hj & He')%HII. unfold g. rewrite Hi, Hj.
      destruct (es_vtx _ _ _ Hi) as (_ & _ & Huv & _). destruct (es_vtx _ _ _ Hj) as (_ & _ & Huv' & _). cbn in *.
      intros Hg. eapply NoDup_lookup; [exact Hnd|exact Hi|]. rewrite Hj. do 2 f_equal; repeat case_decide; subst; naive_solver lia.
    - intros y. rewrite HlG, elem_of_list_fmap. split.
      + intros Hxy. destruct (decide (x <= y)%N).
        * assert ((x, y) ∈ es) as [i Hi]%elem_of_list_lookup by (by apply Hes). exists i. unfold g. rewrite Hi. cbn.
          rewrite decide_True by done. split; [done|]. apply HII. eexists; split; [done|]. by left.
        * assert ((y, x) ∈ es) as [i Hi]%elem_of_list_lookup by (apply Hes; split; [lia|by apply (wf_adj_sym _ Hwf)]).
          exists i. unfold g. rewrite Hi. cbn. rewrite decide_False by lia. split; [done|]. apply HII. eexists; split; [done|]. by right.
      + intros (i & -> & ([u v] & Hi & He)%HII). unfold g. rewrite Hi. cbn in *.
        destruct (es_vtx _ _ _ Hi) as (_ & _ & _ & Huv). case_decide; [by subst|].
        destruct He as [?| ->]; [done|]. by apply (wf_adj_sym _ Hwf). }
  by rewrite !fmap_length.
Qed.

Lemma sub_irrefl x : ¬ R x x.
Proof.
  rewrite HR. intros (i & [u v] & Hi & Hc). destruct (es_vtx _ _ _ Hi) as (Hu%Hb & Hv%Hb & Huv & _).
  rewrite !consec_sub_path in Hc by done. cbn [fst snd] in Hc. nia.
Qed.
End counting.

Lemma ea_0 G (es : list (N * N)) b h k : graph_wf G → k = 0%N → (∀ u v, (u, v) ∈ es ↔ (u <= v)%N ∧ adj G u v) →
  (∀ x y, ea h x y ↔ ∃ i e, es !! i = Some e ∧ (consec (sub_path b k i e) x y ∨ consec (sub_path b k i e) y x)) →
  ∀ x y, ea h x y ↔ adj G x y.
Proof.
  intros Hwf -> Hes HE x y. rewrite HE. setoid_rewrite consec_sub_path_0. split.
  - intros (i & [u v] & Hi%elem_of_list_lookup_2%Hes & [[-> ->]|[-> ->]]); cbn; [apply Hi|apply (wf_adj_sym _ Hwf), Hi].
  - intros Hxy. destruct (decide (x <= y)%N).
    + assert ((x, y) ∈ es) as [i Hi]%elem_of_list_lookup by (by apply Hes). exists i, (x, y). auto.
    + assert ((y, x) ∈ es) as [i Hi]%elem_of_list_lookup by (apply Hes; split; [lia|by apply (wf_adj_sym _ Hwf)]).
      exists i, (y, x). auto.
Qed.

Lemma subdivide_counts G k : graph_wf G → loopless G →
  (∀ v, vtx G v → (v + 1 + N.of_nat (num_edges G) * k < 4294967296)%N) →
  ∀ h, subdivide G k = Ok h →
    eg_num_vertices h = num_vertices G + N.to_nat k * num_edges G ∧
    eg_num_edges h = (N.to_nat k + 1) * num_edges G ∧
    (∀ v, vtx G v → eg_degree h v = degree G v) ∧
    (∀ v, ev h v → ¬ vtx G v → eg_degree h v = 2).
Proof.
  intros Hwf Hloop Hov h Hh.
  destruct (subdivide_spec G k Hwf Hov) as (h' & es & b & Hh' & Hw & Hnd & Hlen & Hes & Hb & HV & HE).
  rewrite Hh in Hh'. injection Hh' as <-.
  pose proof (eg_graph_wf h Hw) as Hgw.
  assert (∀ v, vtx G v → eg_degree h v = degree G v) as Hdo.
  { intros v Hv. assert (vtx (eg_graph h) v) as Hv' by (apply HV; by left).
    destruct (wf_neighbours _ Hwf v Hv) as (l0 & _ & Hl0 & HlG & ->).
    destruct (wf_neighbours _ Hgw v Hv') as (l & _ & Hl & HlR & Hd). cbn in Hd. rewrite Hd.
    assert (adjacent G v v = false) as Hlv by (specialize (Hloop v); unfold adj in Hloop; by destruct (adjacent G v v)).
    rewrite Hlv. destruct (decide (k = 0%N)) as [Hk|Hk].
    - assert (∀ x y, ea h x y ↔ adj G x y) as HE' by (by eapply ea_0).
      replace (eg_adjacent h v v) with false.
      2:{ symmetry. destruct (eg_adjacent h v v) eqn:E; [|done]. apply HE' in E. by apply Hloop in E. }
      f_equal. apply Permutation_length, NoDup_Permutation; [done|done|]. intros y. rewrite HlR, HlG. apply HE'.
    - replace (eg_adjacent h v v) with false.
      2:{ symmetry. destruct (eg_adjacent h v v) eqn:E; [|done].
          exfalso. eapply (sub_irrefl G Hwf Hloop k ltac:(lia) es Hes b Hb (ea h) HE v). done. }
      f_equal. eapply (sub_orig G Hwf Hloop k ltac:(lia) es Hnd Hes b Hb (ea h) HE v); done. }
  assert (∀ v, (b <= v ∧ v < b + N.of_nat (num_edges G) * k)%N → eg_degree h v = 2) as Hdi.
  { intros v Hv. assert (vtx (eg_graph h) v) as Hv' by (apply HV; by right).
    assert (0 < k)%N as Hk by nia.
    destruct (wf_neighbours _ Hgw v Hv') as (l & _ & Hl & HlR & Hd). cbn in Hd. rewrite Hd.
    replace (eg_adjacent h v v) with false.
    2:{ symmetry. destruct (eg_adjacent h v v) eqn:E; [|done].
        exfalso. eapply (sub_irrefl G Hwf Hloop k Hk es Hes b Hb (ea h) HE v). done. }
    rewrite (sub_inner G Hwf Hloop k Hk es Hes b Hb (ea h) HE v l); [done|done|done|by rewrite Hlen]. }
  assert (vertices (eg_graph h) ≡ₚ vertices G ++ range b (b + N.of_nat (num_edges G) * k)) as Hperm.
  { apply NoDup_Permutation; [apply Hgw| |].
    - apply NoDup_app. split_and!; [apply Hwf| |apply NoDup_range].
      intros x Hx%(wf_vertices _ Hwf)%Hb. rewrite elem_of_range. lia.
    - intros x. rewrite (wf_vertices _ Hgw), elem_of_app, elem_of_range, (wf_vertices _ Hwf). apply HV. }
  assert (length (range b (b + N.of_nat (num_edges G) * k)) = num_edges G * N.to_nat k) as Hrl.
  { unfold range. rewrite nrange_length. lia. }
  split_and!; [| |done|].
  - change (eg_num_vertices h) with (num_vertices (eg_graph h)).
    rewrite (wf_num_vertices _ Hgw), Hperm, app_length, <- (wf_num_vertices _ Hwf), Hrl. lia.
  - change (eg_num_edges h) with (num_edges (eg_graph h)).
    pose proof (graph_handshake _ Hgw) as Hh1. pose proof (graph_handshake _ Hwf) as Hh0.
    rewrite (sum_map_perm _ _ _ Hperm), sum_map_app in Hh1.
    rewrite (sum_map_ext (degree (eg_graph h)) (degree G)) in Hh1 by (intros x Hx%(wf_vertices _ Hwf); by apply Hdo).
    rewrite (sum_map_ext (degree (eg_graph h)) (λ _, 2)) in Hh1 by (intros x Hx%elem_of_range; by apply Hdi).
    assert (sum_map (λ _ : N, 2) (range b (b + N.of_nat (num_edges G) * k)) = 2 * (num_edges G * N.to_nat k)) as Hc.
    { rewrite <- Hrl. unfold sum_map. generalize (range b (b + N.of_nat (num_edges G) * k)). clear. intros l. induction l; cbn in *; lia. }
    lia.
  - intros v [?|Hv]%HV Hn; [done|]. by apply Hdi.
Qed.

End with_iter.
