(** The algorithms on linear graphs depend only on the ordered graph, not on the data structure
    that stores it and not on the iteration order of hash sets. *)
From Verif Require Import Base Spec M_Graph M_Iterators M_EditGraph M_Operations M_OrdGraph M_Linear M_Domset
  S_Graph S_Linear S_Reach P_Graph P_Bipartite P_OrdGraph P_OrdGraph2 P_DegenGraph P_DegenGraph2 P_Linear P_Linear2 P_Wdist P_Domset.

(** ** Reordering folds *)
Lemma res_bind_assoc {A B C} (r : res A) (f : A → res B) (g : B → res C) :
  (a ← r; b ← f a; g b) = (b ← (a ← r; f a); g b).
Proof. by destruct r. Qed.
Lemma fold_res_perm {A S} (f : S → A → res S) l1 l2 : l1 ≡ₚ l2 →
  (∀ a b s, a ∈ l1 → b ∈ l1 → a ≠ b → (s' ← f s a; f s' b) = (s' ← f s b; f s' a)) →
  NoDup l1 → ∀ s, fold_res f l1 s = fold_res f l2 s.
Proof.
  induction 1 as [|a l1 l2 Hp IH|a b l|l1 l2 l3 H1 IH1 H2 IH2]; intros Hc Hnd s; [done| | |].
  - apply NoDup_cons in Hnd as [_ Hnd]. cbn [fold_res]. destruct (f s a); cbn [mbind res_bind]; [|done..]. apply IH; [|done].
    intros x y s' Hx Hy. apply Hc; by right.
  - cbn [fold_res]. specialize (Hc b a s). apply NoDup_cons in Hnd as [Hn _].
    assert ((s' ← f s b; f s' a) = (s' ← f s a; f s' b)) as Heq.
    { apply Hc; [left|right; left|]. intros ->. apply Hn. left. }
    rewrite !res_bind_assoc. by rewrite Heq.
  - rewrite IH1, IH2; [done| |by rewrite <- H1|done|done]. intros a b s' Ha Hb. apply Hc; by rewrite H1.
Qed.

Lemma fold_res_ext {A S} (f g : S → A → res S) l : (∀ a s, a ∈ l → f s a = g s a) → ∀ s, fold_res f l s = fold_res g l s.
Proof.
  induction l as [|a l IH]; intros Hf s; [done|]. cbn [fold_res]. rewrite Hf by left. destruct (g s a); cbn [mbind res_bind]; [|done..].
  apply IH. intros b s' Hb. apply Hf. by right.
Qed.

Lemma map_iter_two `{Countable K} {A} (H1 H2 : HashIter) t (m : gmap K A) : @map_iter H1 t K A _ _ m ≡ₚ @map_iter H2 t K A _ _ m.
Proof. by rewrite (@map_iter_perm H1), (@map_iter_perm H2). Qed.

(** ** Relaxations commute *)
Lemma relax_comm (dd : gmap N nat) a i b j : (d ← ds_relax dd a i; ds_relax d b j) = (d ← ds_relax dd b j; ds_relax d a i).
Proof.
  unfold ds_relax. destruct (dd !! a) as [da|] eqn:Ea, (dd !! b) as [db|] eqn:Eb; cbn [unwrap mbind res_bind].
  - destruct (decide (a = b)) as [->|Hne].
    + simplify_eq. rewrite !lookup_insert. cbn [unwrap mbind res_bind]. rewrite !insert_insert. do 2 f_equal. lia.
    + rewrite !lookup_insert_ne by done. rewrite Ea, Eb. cbn [unwrap mbind res_bind]. f_equal. by apply insert_commute.
  - assert (a ≠ b) by congruence. rewrite lookup_insert_ne by done. by rewrite Eb.
  - assert (a ≠ b) by congruence. rewrite lookup_insert_ne by done. by rewrite Ea.
  - done.
Qed.

Lemma relax_some (dd : gmap N nat) u d k : dd !! u = Some d → ds_relax dd u k = Ok (<[u := min d k]> dd).
Proof. intros Hd. unfold ds_relax. by rewrite Hd. Qed.
Lemma relax_none (dd : gmap N nat) u k : dd !! u = None → ds_relax dd u k = Panic.
Proof. intros Hd. unfold ds_relax. by rewrite Hd. Qed.

Definition relaxes (l : list (N * nat)) (dd : gmap N nat) : res (gmap N nat) := fold_res (λ dd q, ds_relax dd q.1 q.2) l dd.

Lemma relaxes_app l1 l2 dd : relaxes (l1 ++ l2) dd = (d ← relaxes l1 dd; relaxes l2 d).
Proof. apply fold_res_app. Qed.

Lemma relaxes_perm l1 l2 dd : l1 ≡ₚ l2 → relaxes l1 dd = relaxes l2 dd.
Proof.
  intros Hp. revert dd. induction Hp as [|[a i] l1 l2 Hp IH|[a i] [b j] l|l1 l2 l3 H1 IH1 H2 IH2]; intros dd; [done| | |congruence].
  - unfold relaxes in *. cbn [fold_res fst snd]. destruct (ds_relax dd a i); cbn [mbind res_bind]; [apply IH|done..].
  - unfold relaxes. cbn [fold_res fst snd]. pose proof (relax_comm dd b j a i) as Hc.
    rewrite !res_bind_assoc. by rewrite Hc.
Qed.

Lemma relaxes_not_diverge l dd : relaxes l dd ≠ Diverge.
Proof.
  revert dd. induction l as [|[a i] l IH]; intros dd; [done|]. unfold relaxes in *. cbn [fold_res fst snd].
  assert (∃ o, ds_relax dd a i = match o with Some d => Ok d | None => Panic end) as [[d|] ->]; cbn [mbind res_bind]; [|apply IH|done].
  unfold ds_relax. destruct (dd !! a) as [k|]; [by exists (Some (<[a := min k i]> dd))|by exists None].
Qed.

(** ** The update step as a list of relaxations *)
Definition upd_list `{HashIter} (W : gmap N (gmap N nat)) (b : bool) (u : N) (k : nat) : res (list (N * nat)) :=
  if b then Wu ← unwrap (W !! u); Ok ((u, k) :: (u, 0) :: map_iter 20 Wu) else Ok [(u, k)].

Lemma ds_update_alt `{HashIter} W cutoff st u k : ds_update W cutoff st (u, k) =
  (c ← unwrap (ds_cnt st !! u);
   let b := (cutoff <? S c) && negb (bool_decide (u ∈ ds_dom st)) in
   l ← upd_list W b u k;
   dd ← relaxes l (ds_dd st);
   Ok (DsState (if b then {[u]} ∪ ds_dom st else ds_dom st) (ds_scat st) dd (<[u := S c]> (ds_cnt st)))).
Proof.
  unfold ds_update, upd_list. destruct (ds_cnt st !! u) as [c|]; cbn [unwrap mbind res_bind]; [|done].
  destruct ((cutoff <? S c) && negb (bool_decide (u ∈ ds_dom st))) eqn:E; cbn zeta.
  - destruct (ds_dd st !! u) as [d|] eqn:Ed.
    + rewrite (relax_some _ u d k Ed). cbn [mbind res_bind ds_dom ds_scat ds_dd ds_cnt].
      rewrite E. destruct (W !! u) as [Wu|]; cbn [unwrap mbind res_bind]; [|done].
      assert (relaxes ((u, k) :: (u, 0) :: map_iter 20 Wu) (ds_dd st) = relaxes (map_iter 20 Wu) (<[u := 0]> (<[u := min d k]> (ds_dd st)))) as ->; [|done].
      unfold relaxes. cbn [fold_res fst snd]. rewrite (relax_some _ u d k Ed). cbn [mbind res_bind].
      rewrite (relax_some _ u (min d k) 0) by apply lookup_insert. cbn [mbind res_bind]. by rewrite Nat.min_0_r.
    + rewrite (relax_none _ u k Ed). destruct (W !! u) as [Wu|]; cbn [unwrap mbind res_bind]; [|done].
      unfold relaxes. cbn [fold_res fst snd]. rewrite (relax_none _ u k Ed). done.
  - unfold relaxes. cbn [fold_res fst snd mbind res_bind]. destruct (ds_relax (ds_dd st) u k) as [dd| |]; cbn [mbind res_bind ds_dom ds_scat ds_dd ds_cnt]; [|done..].
    by rewrite E.
Qed.

Lemma upd_list_two (H1 H2 : HashIter) W b u k :
  match @upd_list H1 W b u k, @upd_list H2 W b u k with
  | Ok l1, Ok l2 => l1 ≡ₚ l2
  | Panic, Panic => True
  | _, _ => False
  end.
Proof.
  unfold upd_list. destruct b; [|done]. destruct (W !! u); cbn [unwrap mbind res_bind]; [|done].
  do 2 constructor. apply map_iter_two.
Qed.

Lemma ds_update_two (H1 H2 : HashIter) W cutoff st p : @ds_update H1 W cutoff st p = @ds_update H2 W cutoff st p.
Proof.
  destruct p as [u k]. rewrite (@ds_update_alt H1), (@ds_update_alt H2). destruct (ds_cnt st !! u) as [c|]; cbn [unwrap mbind res_bind]; [|done].
  cbn zeta. pose proof (upd_list_two H1 H2 W ((cutoff <? S c) && negb (bool_decide (u ∈ ds_dom st))) u k) as Hu.
  destruct (@upd_list H1 W _ u k) as [l1| |], (@upd_list H2 W _ u k) as [l2| |]; try done. cbn [mbind res_bind].
  by rewrite (relaxes_perm l1 l2).
Qed.

Lemma bind_panic {A B} (r : res A) : r ≠ Diverge → (a ← r; Panic) = (Panic : res B).
Proof. by destruct r. Qed.

Lemma ds_update_comm `{HashIter} W cutoff u1 k1 u2 k2 st : u1 ≠ u2 →
  (s ← ds_update W cutoff st (u1, k1); ds_update W cutoff s (u2, k2)) =
  (s ← ds_update W cutoff st (u2, k2); ds_update W cutoff s (u1, k1)).
Proof.
  intros Hne. rewrite !ds_update_alt.
  destruct (ds_cnt st !! u1) as [c1|] eqn:E1, (ds_cnt st !! u2) as [c2|] eqn:E2; cbn [unwrap mbind res_bind]; cbn zeta; cycle 1.
  { set (b1 := (cutoff <? S c1) && _). destruct (upd_list W b1 u1 k1) as [l1| |] eqn:El; cbn [mbind res_bind]; [|done|].
    - pose proof (relaxes_not_diverge l1 (ds_dd st)). destruct (relaxes l1 (ds_dd st)); cbn [mbind res_bind]; [|done|done].
      rewrite ds_update_alt. cbn [ds_cnt]. rewrite lookup_insert_ne, E2 by done. done.
    - unfold upd_list in El. destruct b1; [destruct (W !! u1)|]; done. }
  { set (b2 := (cutoff <? S c2) && _). destruct (upd_list W b2 u2 k2) as [l2| |] eqn:El; cbn [mbind res_bind]; [|done|].
    - pose proof (relaxes_not_diverge l2 (ds_dd st)). destruct (relaxes l2 (ds_dd st)); cbn [mbind res_bind]; [|done|done].
      rewrite ds_update_alt. cbn [ds_cnt]. rewrite lookup_insert_ne, E1 by done. done.
    - unfold upd_list in El. destruct b2; [destruct (W !! u2)|]; done. }
  { done. }
  set (b1 := (cutoff <? S c1) && negb (bool_decide (u1 ∈ ds_dom st))).
  set (b2 := (cutoff <? S c2) && negb (bool_decide (u2 ∈ ds_dom st))).
  assert (∀ b u k, upd_list W b u k ≠ Diverge) as Hnd.
  { intros b u k. unfold upd_list. destruct b; [destruct (W !! u)|]; done. }
  assert (∀ (x y : N) (b : bool), x ≠ y → bool_decide (x ∈ (if b then {[y]} ∪ ds_dom st else ds_dom st)) = bool_decide (x ∈ ds_dom st)) as Hb.
  { intros x y b Hxy. apply bool_decide_ext. destruct b; [|done]. rewrite elem_of_union, elem_of_singleton. naive_solver. }
  destruct (upd_list W b1 u1 k1) as [l1| |] eqn:El1; cbn [mbind res_bind]; [| |by destruct (Hnd b1 u1 k1)]; cycle 1.
  { destruct (upd_list W b2 u2 k2) as [l2| |] eqn:El2; cbn [mbind res_bind]; [|done|by destruct (Hnd b2 u2 k2)].
    pose proof (relaxes_not_diverge l2 (ds_dd st)). destruct (relaxes l2 (ds_dd st)); cbn [mbind res_bind]; [|done|done].
    rewrite ds_update_alt. cbn [ds_cnt ds_dom]. rewrite lookup_insert_ne, E1 by done. cbn [unwrap mbind res_bind]. cbn zeta.
    rewrite Hb by done. fold b1. by rewrite El1. }
  destruct (upd_list W b2 u2 k2) as [l2| |] eqn:El2; cbn [mbind res_bind]; [| |by destruct (Hnd b2 u2 k2)]; cycle 1.
  { pose proof (relaxes_not_diverge l1 (ds_dd st)). destruct (relaxes l1 (ds_dd st)); cbn [mbind res_bind]; [|done|done].
    rewrite ds_update_alt. cbn [ds_cnt ds_dom]. rewrite lookup_insert_ne, E2 by done. cbn [unwrap mbind res_bind]. cbn zeta.
    rewrite Hb by done. fold b2. by rewrite El2. }
  pose proof (relaxes_perm (l1 ++ l2) (l2 ++ l1) (ds_dd st) (Permutation_app_comm _ _)) as Hp. rewrite !relaxes_app in Hp.
  destruct (relaxes l1 (ds_dd st)) as [d1| |] eqn:Er1; cbn [mbind res_bind] in *; [| |by destruct (relaxes_not_diverge l1 (ds_dd st))].
  - rewrite ds_update_alt. cbn [ds_cnt ds_dom ds_dd ds_scat]. rewrite lookup_insert_ne, E2 by done. cbn [unwrap mbind res_bind]. cbn zeta.
    rewrite Hb by done. fold b2. rewrite El2. cbn [mbind res_bind].
    destruct (relaxes l2 (ds_dd st)) as [d2| |] eqn:Er2; cbn [mbind res_bind] in *; [| |by destruct (relaxes_not_diverge l2 (ds_dd st))].
    + rewrite ds_update_alt. cbn [ds_cnt ds_dom ds_dd ds_scat]. rewrite lookup_insert_ne, E1 by done. cbn [unwrap mbind res_bind]. cbn zeta.
      rewrite Hb by done. fold b1. rewrite El1. cbn [mbind res_bind]. rewrite Hp. destruct (relaxes l1 d2); cbn [mbind res_bind]; [|done..].
      f_equal. f_equal; [|by apply insert_commute]. destruct b1, b2; [|done..]. apply set_eq. intros x. rewrite !elem_of_union. tauto.
    + rewrite Hp. done.
  - destruct (relaxes l2 (ds_dd st)) as [d2| |] eqn:Er2; cbn [mbind res_bind] in *; [|done|by destruct (relaxes_not_diverge l2 (ds_dd st))].
    rewrite ds_update_alt. cbn [ds_cnt ds_dom ds_dd ds_scat]. rewrite lookup_insert_ne, E1 by done. cbn [unwrap mbind res_bind]. cbn zeta.
    rewrite Hb by done. fold b1. rewrite El1. cbn [mbind res_bind]. rewrite <- Hp. done.
Qed.

Lemma updates_two (H1 H2 : HashIter) W cutoff (Wv : gmap N nat) st :
  fold_res (@ds_update H1 W cutoff) (@map_iter H1 22 _ _ _ _ Wv) st = fold_res (@ds_update H2 W cutoff) (@map_iter H2 22 _ _ _ _ Wv) st.
Proof.
  rewrite (fold_res_ext (@ds_update H1 W cutoff) (@ds_update H2 W cutoff)) by (intros; apply ds_update_two).
  apply fold_res_perm; [apply map_iter_two| |apply (@NoDup_map_iter H1)].
  intros [u1 k1] [u2 k2] s Ha Hb Hne. apply (@elem_of_map_iter H1) in Ha, Hb. apply ds_update_comm. congruence.
Qed.

Lemma vrelax_two (H1 H2 : HashIter) v (Wv : gmap N nat) dd : Wv !! v = None →
  fold_res (λ (dd : gmap N nat) p, du ← unwrap (dd !! p.1); ds_relax dd v (p.2 + du)) (@map_iter H1 21 _ _ _ _ Wv) dd =
  fold_res (λ (dd : gmap N nat) p, du ← unwrap (dd !! p.1); ds_relax dd v (p.2 + du)) (@map_iter H2 21 _ _ _ _ Wv) dd.
Proof.
  intros Hv. apply fold_res_perm; [apply map_iter_two| |apply (@NoDup_map_iter H1)].
  intros [a i] [b j] s Ha Hb _. apply (@elem_of_map_iter H1) in Ha, Hb. cbn [fst snd].
  assert (a ≠ v ∧ b ≠ v) as [Hav Hbv] by (split; congruence).
  destruct (s !! v) as [dv|] eqn:Ev; cycle 1.
  { destruct (s !! a), (s !! b); cbn [unwrap mbind res_bind]; rewrite ?(relax_none s v) by done; done. }
  destruct (s !! a) as [da|] eqn:Ea, (s !! b) as [db|] eqn:Eb; cbn [unwrap mbind res_bind].
  - rewrite !(relax_some s v dv) by done. cbn [mbind res_bind]. rewrite !lookup_insert_ne by done. rewrite Ea, Eb. cbn [unwrap mbind res_bind].
    erewrite !relax_some by apply lookup_insert. rewrite !insert_insert. do 2 f_equal. lia.
  - rewrite !(relax_some s v dv) by done. cbn [mbind res_bind]. rewrite !lookup_insert_ne by done. by rewrite Eb.
  - rewrite !(relax_some s v dv) by done. cbn [mbind res_bind]. rewrite !lookup_insert_ne by done. by rewrite Ea.
  - done.
Qed.

Lemma ds_step_two (H1 H2 : HashIter) W T r cutoff st v : (∀ Wv, W !! v = Some Wv → Wv !! v = None) →
  @ds_step H1 W T r cutoff st v = @ds_step H2 W T r cutoff st v.
Proof.
  intros Hself. unfold ds_step. destruct (W !! v) as [Wv|]; cbn [unwrap mbind res_bind]; [|done].
  rewrite (vrelax_two H1 H2) by auto. destruct (fold_res _ (@map_iter H2 21 _ _ _ _ Wv) (ds_dd st)) as [dd| |]; cbn [mbind res_bind]; [|done..].
  destruct (dd !! v) as [dv|]; cbn [unwrap mbind res_bind]; [|done]. destruct (dv <=? r); [done|].
  destruct (assert_res _); cbn [mbind res_bind]; [|done..]. apply updates_two.
Qed.

Lemma ds_loop_two (H1 H2 : HashIter) W T r cutoff order : (∀ v Wv, W !! v = Some Wv → Wv !! v = None) →
  @ds_loop H1 W T r cutoff order = @ds_loop H2 W T r cutoff order.
Proof. intros Hself. apply fold_res_ext. intros v st _. apply ds_step_two. auto. Qed.

(** ** Two representations of the same ordered graph *)
Lemma bk_ext (L1 L2 : lgraph) (Ha : ∀ u v, adjacent L1 u v = adjacent L2 u v) fuel : ∀ v vs include maybe exclude results,
  bk_pivot_count fuel L1 v vs include maybe exclude results = bk_pivot_count fuel L2 v vs include maybe exclude results.
Proof.
  induction fuel as [|fuel IH]; intros v vs include maybe exclude results; [done|]. cbn [bk_pivot_count].
  destruct (bool_decide (maybe = ∅) && bool_decide (exclude = ∅)); [done|].
  destruct (bk_pivot vs maybe exclude) as [[iu u]|]; cbn [unwrap mbind res_bind]; [|done].
  match goal with |- context [@filter ?A ?B ?C (λ x, adjacent (lg_graph L1) u x = true) ?d1 ?l] =>
    match goal with |- context [@filter A B C (λ x, adjacent (lg_graph L2) u x = true) ?d2 l] =>
      replace (@filter A B C (λ x, adjacent L1 u x = true) d1 l) with (@filter A B C (λ x, adjacent L2 u x = true) d2 l)
        by (apply list_filter_iff; intros x; by rewrite Ha)
    end end.
  match goal with |- (fold_res ?f ?l ?s ≫= _) = (fold_res ?g _ _ ≫= _) => rewrite (fold_res_ext f g l) end; [done|].
  intros w [[[inc may] exc] res] _. destruct (negb _ || _); [done|]. by rewrite IH.
Qed.

Section two.
Context (H1 H2 : HashIter) (L1 L2 : lgraph) (HL1 : lgraph_wf L1) (HL2 : lgraph_wf L2).
Context (Hvs : vertices L1 = vertices L2) (Hadj : ∀ u v, adj L1 u v ↔ adj L2 u v).

Lemma two_adjacent u v : adjacent L1 u v = adjacent L2 u v.
Proof. specialize (Hadj u v). unfold adj in Hadj. destruct (adjacent L1 u v), (adjacent L2 u v); naive_solver. Qed.

Lemma two_vtx u : vtx L1 u ↔ vtx L2 u.
Proof. rewrite <- (vs_vtx L1 HL1), <- (vs_vtx L2 HL2). by rewrite Hvs. Qed.

Lemma two_contains u : contains L1 u = contains L2 u.
Proof. pose proof (two_vtx u) as Hv. unfold vtx in Hv. destruct (contains L1 u), (contains L2 u); naive_solver. Qed.

Lemma two_num : num_vertices L1 = num_vertices L2.
Proof. rewrite (wf_num_vertices _ (lwf_graph _ HL1)), (wf_num_vertices _ (lwf_graph _ HL2)). by rewrite Hvs. Qed.

Lemma two_num_edges : num_edges L1 = num_edges L2.
Proof.
  destruct (wf_num_edges _ (lwf_graph _ HL1)) as (E1 & HE1 & ->), (wf_num_edges _ (lwf_graph _ HL2)) as (E2 & HE2 & ->).
  f_equal. apply set_eq. intros [u v]. rewrite HE1, HE2, Hadj. done.
Qed.

Lemma two_degree u : vtx L1 u → degree L1 u = degree L2 u.
Proof.
  intros Hu. destruct (wf_neighbours _ (lwf_graph _ HL1) u Hu) as (l1 & _ & Hn1 & He1 & ->).
  destruct (wf_neighbours _ (lwf_graph _ HL2) u (proj1 (two_vtx u) Hu)) as (l2 & _ & Hn2 & He2 & ->).
  rewrite two_adjacent. f_equal. apply Permutation_length, NoDup_Permutation; [done|done|]. intros x. by rewrite He1, He2, Hadj.
Qed.

Lemma two_left u : vtx L1 u → left_neighbours L1 u = left_neighbours L2 u.
Proof.
  intros Hu. destruct (lwf_left _ HL1 u Hu) as (l1 & -> & Hl1), (lwf_left _ HL2 u (proj1 (two_vtx u) Hu)) as (l2 & -> & Hl2).
  f_equal. eapply lists_in_order_unique; [apply (vs_nodup L1 HL1)|exact Hl1|]. rewrite <- Hvs in Hl2.
  destruct Hl2 as [Ha Hb]. split; [|exact Hb]. intros x. rewrite Ha, Hadj. done.
Qed.

Lemma two_right u : vtx L1 u → right_degree L1 u = right_degree L2 u.
Proof.
  intros Hu. destruct (lwf_right _ HL1 u Hu) as (l1 & Hn1 & -> & He1), (lwf_right _ HL2 u (proj1 (two_vtx u) Hu)) as (l2 & Hn2 & -> & He2).
  apply Permutation_length, NoDup_Permutation; [done|done|]. intros x. by rewrite He1, He2, Hadj, Hvs.
Qed.

Lemma two_left_degree u : left_degree L1 u = left_degree L2 u.
Proof.
  unfold left_degree. rewrite two_contains. destruct (contains L2 u) eqn:E; [|done]. rewrite two_left; [done|]. apply two_vtx. exact E.
Qed.

Lemma two_order : ds_order L1 = ds_order L2.
Proof.
  unfold ds_order. rewrite Hvs, two_num.
  assert (∀ l, (∀ u, u ∈ l → vtx L1 u) → mapM (λ u, d ← left_degree L1 u; Ok (d * num_vertices L2 + degree L1 u, u)) l =
    mapM (λ u, d ← left_degree L2 u; Ok (d * num_vertices L2 + degree L2 u, u)) l) as ->; [|done|].
  - induction l as [|u l IH]; intros Hl; [done|]. cbn. rewrite two_left_degree, (two_degree u) by (apply Hl; left).
    rewrite IH by (intros x Hx; apply Hl; by right). done.
  - intros u Hu. rewrite <- Hvs in Hu. by apply (vs_vtx L1 HL1).
Qed.

Lemma two_not_left u x : not_left L1 u x ↔ not_left L2 u x.
Proof. unfold not_left. by rewrite Hvs. Qed.

Lemma walk_iff (R1 R2 : N → N → Prop) p : (∀ x y, R1 x y ↔ R2 x y) → walk R1 p ↔ walk R2 p.
Proof. intros HR. induction p as [|x [|y p] IH]; [done|done|]. cbn [walk] in *. by rewrite HR, IH. Qed.

Lemma two_wwalk u v k : wreach_walk L1 u v k ↔ wreach_walk L2 u v k.
Proof.
  unfold wreach_walk. split; intros (p & ? & ? & ? & Hw & Hn); exists p; split_and!; try done.
  - by eapply walk_iff; [|exact Hw].
  - intros y Hy. by apply two_not_left, Hn.
  - by eapply walk_iff; [|exact Hw].
  - intros y Hy. by apply two_not_left, Hn.
Qed.
Lemma two_swalk u v k : sreach_walk L1 u v k ↔ sreach_walk L2 u v k.
Proof.
  unfold sreach_walk. split; intros (p & ? & ? & Hw & Hn); exists p; split_and!; try done.
  - by eapply walk_iff; [|exact Hw].
  - intros y Hy. by apply two_not_left, Hn.
  - by eapply walk_iff; [|exact Hw].
  - intros y Hy. by apply two_not_left, Hn.
Qed.

Lemma two_least (P Q : nat → Prop) k : (∀ n, P n ↔ Q n) → least P k ↔ least Q k.
Proof. intros HP. unfold least. rewrite HP. split; intros [? Hm]; (split; [done|]); intros j Hj; apply Hm; by apply HP. Qed.

Lemma two_wreach_sets r : @wreach_sets H1 L1 r = @wreach_sets H2 L2 r.
Proof.
  destruct (decide (N.of_nat r + 1 < u32_mod)%N) as [Hr|Hr].
  - destruct (@wreach_sets_spec H1 L1 HL1 r Hr) as (W1 & -> & Hd1 & Hs1), (@wreach_sets_spec H2 L2 HL2 r Hr) as (W2 & -> & Hd2 & Hs2).
    f_equal. apply map_eq. intros u. destruct (W1 !! u) as [w1|] eqn:E1, (W2 !! u) as [w2|] eqn:E2; [| | |done].
    + f_equal. apply map_eq. intros v. apply option_eq. intros k. rewrite (Hs1 u w1 E1 v k), (Hs2 u w2 E2 v k).
      rewrite Hvs. by rewrite (two_least _ _ k (two_wwalk u v)).
    + exfalso. assert (is_Some (W1 !! u)) as Hi by eauto. apply Hd1, two_vtx, Hd2 in Hi. rewrite E2 in Hi. by destruct Hi.
    + exfalso. assert (is_Some (W2 !! u)) as Hi by eauto. apply Hd2, two_vtx, Hd1 in Hi. rewrite E1 in Hi. by destruct Hi.
  - assert (∀ (H : HashIter) L, lgraph_wf L → wreach_sets L r = match vertices L with [] => Ok ∅ | _ => Panic end) as Hall.
    { intros H L HL. unfold wreach_sets, const_map. destruct (vertices L) as [|v vs] eqn:E; [done|]. cbn [fold_res].
      unfold right_bfs. destruct (lwf_index _ HL v) as [i ->]; [apply (vs_vtx L HL); rewrite E; left|]. cbn [mbind res_bind].
      replace (N.of_nat r + 1 <? u32_mod)%N with false by (symmetry; apply N.ltb_ge; lia). done. }
    rewrite (Hall H1 L1 HL1), (Hall H2 L2 HL2). by rewrite Hvs.
Qed.

Lemma two_right_bfs root dist : @right_bfs H1 L1 root dist = @right_bfs H2 L2 root dist.
Proof.
  destruct (contains L1 root) eqn:Ec; cycle 1.
  { unfold right_bfs. rewrite (lwf_index_panic L1 HL1), (lwf_index_panic L2 HL2); [done| |]; unfold vtx; [rewrite <- two_contains|]; by rewrite Ec. }
  pose proof Ec as Ec2. rewrite two_contains in Ec2.
  destruct (decide (N.of_nat dist + 1 < u32_mod)%N) as [Hr|Hr].
  - destruct (@right_bfs_spec H1 L1 HL1 root dist Ec Hr) as (l1 & -> & Hn1 & Hl1), (@right_bfs_spec H2 L2 HL2 root dist Ec2 Hr) as (l2 & -> & Hn2 & Hl2).
    f_equal. apply list_eq. intros d. destruct (l1 !! d) as [X|] eqn:E1, (l2 !! d) as [Y|] eqn:E2; [| | |done].
    + f_equal. apply set_eq. intros v. rewrite (Hl1 d X E1), (Hl2 d Y E2). unfold is_dist.
      assert (∀ n x y, nsteps (right_adj L1 root) n x y ↔ nsteps (right_adj L2 root) n x y) as Hn.
      { assert (∀ x y, right_adj L1 root x y ↔ right_adj L2 root x y) as Hra by (intros x y; unfold right_adj; by rewrite Hadj, !two_not_left).
        intros n x y. split; intros Hn; (induction Hn as [|n x y z Hxy _ IH]; [constructor|]; econstructor; [by apply Hra|done]). }
      rewrite Hn. split; intros [? Hm]; (split; [done|]); intros j Hj; apply Hm; by apply Hn.
    + exfalso. apply lookup_lt_Some in E1. apply lookup_ge_None in E2. lia.
    + exfalso. apply lookup_lt_Some in E2. apply lookup_ge_None in E1. lia.
  - unfold right_bfs. destruct (lwf_index _ HL1 root Ec) as [i ->], (lwf_index _ HL2 root Ec2) as [j ->]. cbn [mbind res_bind].
    replace (N.of_nat dist + 1 <? u32_mod)%N with false by (symmetry; apply N.ltb_ge; lia). done.
Qed.

Lemma two_sreach_set u r : @sreach_set H1 L1 u r = @sreach_set H2 L2 u r.
Proof.
  destruct r as [|r]; [done|]. destruct (contains L1 u) eqn:Ec; cycle 1.
  { unfold sreach_set. cbn [sub_checked mbind res_bind]. destruct (sub_checked (S r) 1) as [k| |]; cbn [mbind res_bind]; [|done..].
    unfold right_bfs. rewrite (lwf_index_panic L1 HL1), (lwf_index_panic L2 HL2); [done| |]; unfold vtx; [rewrite <- two_contains|]; by rewrite Ec. }
  pose proof Ec as Ec2. rewrite two_contains in Ec2.
  destruct (decide (N.of_nat (S r) < u32_mod)%N) as [Hr|Hr].
  - destruct (@sreach_set_spec H1 L1 HL1 u (S r) Ec) as (s1 & -> & Hs1); [lia|done|].
    destruct (@sreach_set_spec H2 L2 HL2 u (S r) Ec2) as (s2 & -> & Hs2); [lia|done|].
    f_equal. apply map_eq. intros v. apply option_eq. intros k. rewrite (Hs1 v k), (Hs2 v k). rewrite Hvs.
    by rewrite (two_least _ _ k (two_swalk u v)).
  - unfold sreach_set. change (sub_checked (S r) 1) with (Ok r : res nat) || (unfold sub_checked; cbn [Nat.leb Nat.sub]; rewrite ?Nat.sub_0_r).
    cbn [mbind res_bind]. unfold right_bfs. destruct (lwf_index _ HL1 u Ec) as [i ->], (lwf_index _ HL2 u Ec2) as [j ->]. cbn [mbind res_bind].
    replace (N.of_nat r + 1 <? u32_mod)%N with false by (symmetry; apply N.ltb_ge; lia). done.
Qed.

Lemma two_sreach_sets r : @sreach_sets H1 L1 r = @sreach_sets H2 L2 r.
Proof. unfold sreach_sets. rewrite Hvs. apply fold_res_ext. intros u m _. by rewrite two_sreach_set. Qed.
Lemma two_sreach_sizes r : @sreach_sizes H1 L1 r = @sreach_sizes H2 L2 r.
Proof. unfold sreach_sizes. rewrite Hvs. apply fold_res_ext. intros u m _. by rewrite two_sreach_set. Qed.

Lemma foldl_upd_perm (l1 l2 : list N) : l1 ≡ₚ l2 → ∀ m : gmap N nat, foldl (λ m v, map_upd 0 S v m) m l1 = foldl (λ m v, map_upd 0 S v m) m l2.
Proof.
  induction 1 as [|a l1 l2 Hp IH|a b l|l1 l2 l3 _ IH1 _ IH2]; intros m; [done|apply IH| |by rewrite IH1].
  cbn [foldl]. f_equal. unfold map_upd. destruct (decide (a = b)) as [->|Hne]; [done|].
  rewrite !lookup_insert_ne by done. by apply insert_commute.
Qed.
Lemma two_wreach_sizes r : @wreach_sizes H1 L1 r = @wreach_sizes H2 L2 r.
Proof.
  unfold wreach_sizes, const_map. rewrite Hvs. apply fold_res_ext. intros u m _. rewrite two_right_bfs.
  destruct (@right_bfs H2 L2 u r) as [ls| |]; cbn [mbind res_bind]; [|done..]. f_equal. revert m.
  induction (drop 1 ls) as [|X Xs IH]; intros m; [done|]. cbn [foldl]. rewrite (foldl_upd_perm _ (@hash_iter H2 3 _ _ _ X)); [apply IH|].
  by rewrite (@hash_iter_perm H1), (@hash_iter_perm H2).
Qed.

Lemma two_count : count_max_cliques L1 = count_max_cliques L2.
Proof.
  unfold count_max_cliques. rewrite Hvs. erewrite fold_res_ext; [reflexivity|]. intros v res Hv. cbn beta.
  rewrite two_left by (apply (vs_vtx L1 HL1); by rewrite Hvs). destruct (left_neighbours L2 v); cbn [mbind res_bind]; [|done..]. apply bk_ext, two_adjacent.
Qed.
Lemma two_greedy : colour_greedy L1 = colour_greedy L2.
Proof.
  unfold colour_greedy. rewrite Hvs. erewrite fold_res_ext; [reflexivity|]. intros v [cs used] Hv. cbn beta.
  by rewrite two_left by (apply (vs_vtx L1 HL1); by rewrite Hvs).
Qed.

Lemma two_loop r T cutoff W order : @wreach_sets H1 L1 r = Ok W → (N.of_nat r + 1 < u32_mod)%N →
  ∀ r', @ds_loop H1 W T r' cutoff order = @ds_loop H2 W T r' cutoff order.
Proof.
  intros HW Hr r'. apply ds_loop_two. intros v Wv Hv. destruct (@wreach_sets_spec H1 L1 HL1 r Hr) as (W' & HW' & Hm).
  assert (W' = W) as -> by congruence. destruct (Wv !! v) as [k|] eqn:E; [|done].
  by destruct (wm_entry L1 HL1 r W Hm v Wv v k Hv E) as (_ & ? & _).
Qed.

Lemma two_domset r T : @domset_with_target H1 L1 r false T = @domset_with_target H2 L2 r false T.
Proof.
  unfold domset_with_target, g_is_empty, g_len. cbn [negb]. rewrite two_num, two_order, (two_wreach_sets r).
  destruct (_ || _); [done|]. destruct (N.of_nat (2 * r) * N.of_nat (2 * r) <? u32_mod)%N eqn:Er; cbn [assert_res mbind res_bind]; [|done].
  destruct (ds_order L2) as [order| |]; cbn [mbind res_bind]; [|done..].
  destruct (@wreach_sets H2 L2 r) as [W| |] eqn:EW; cbn [mbind res_bind]; [|done..].
  rewrite (two_loop r (collect_set T) _ W order); [done|by rewrite two_wreach_sets|].
  apply N.ltb_lt in Er. unfold u32_mod in *. nia.
Qed.
End two.
