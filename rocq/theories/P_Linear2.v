(** Proofs about weak reachability sets. *)
From Verif Require Import Base Spec M_Graph M_Iterators M_OrdGraph M_Linear S_Graph S_Linear S_Reach
  P_Graph P_OrdGraph P_OrdGraph2 P_DegenGraph P_Linear.

Lemma const_map_lookup {A} (L : lgraph) (a : A) v :
  const_map L a !! v = if decide (v ∈ vertices L) then Some a else None.
Proof. unfold const_map. by rewrite (foldl_insert_lookup (λ _, a)), lookup_empty. Qed.

(** The layer of [v], counted from one. *)
Definition layer_of (ls : list (gset N)) (v : N) : option nat := (λ p, S p.1) <$> list_find (λ X, v ∈ X) ls.

(** Layers are pairwise disjoint. *)
Definition disjoint_layers (ls : list (gset N)) : Prop :=
  ∀ i j X Y v, ls !! i = Some X → ls !! j = Some Y → v ∈ X → v ∈ Y → i = j.

Lemma layer_of_spec ls v d : disjoint_layers ls →
  layer_of ls v = Some d ↔ ∃ i X, d = S i ∧ ls !! i = Some X ∧ v ∈ X.
Proof.
  intros Hd. unfold layer_of. rewrite fmap_Some. split.
  - intros ([i X] & Hf & ->). apply list_find_Some in Hf as (? & ? & _). eauto.
  - intros (i & X & -> & Hi & Hv). destruct (list_find (λ X, v ∈ X) ls) as [[j Y]|] eqn:E.
    + exists (j, Y). split; [done|]. apply list_find_Some in E as (Hj & HvY & _). cbn. f_equal.
      by eapply Hd.
    + exfalso. apply list_find_None in E. rewrite Forall_forall in E. apply (E X); [|done].
      by eapply elem_of_list_lookup_2.
Qed.

Section with_iter.
Context `{HI : HashIter}.

Lemma wr_layer (u : N) k vs : u ∉ vs → ∀ m : gmap N (gmap N nat), (∀ v, v ∈ vs → is_Some (m !! v)) →
  ∃ m', fold_res (λ m v,
        _ ← assert_res (negb (bool_decide (v = u)));
        w ← unwrap (m !! v);
        Ok (<[v := <[u := k]> w]> m)) vs m = Ok m' ∧
    ∀ v, m' !! v = if decide (v ∈ vs) then insert u k <$> m !! v else m !! v.
Proof.
  induction vs as [|x vs IH]; intros Hu m Hm; cbn [fold_res].
  { exists m. split; [done|]. intros v. by rewrite decide_False by set_solver. }
  rewrite bool_decide_false by set_solver. cbn [negb assert_res mbind res_bind].
  destruct (Hm x) as [w Hw]; [set_solver|]. rewrite Hw. cbn [unwrap mbind res_bind].
  destruct (IH ltac:(set_solver) (<[x := <[u := k]> w]> m)) as (m' & -> & Hm').
  { intros v Hv. destruct (decide (v = x)) as [->|]; [rewrite lookup_insert; eauto|].
    rewrite lookup_insert_ne by done. apply Hm. set_solver. }
  exists m'. split; [done|]. intros v. rewrite Hm'. destruct (decide (v = x)) as [->|].
  - rewrite lookup_insert. rewrite (decide_True (P := x ∈ x :: vs)) by set_solver. rewrite Hw. cbn.
    destruct (decide (x ∈ vs)); [|done]. by rewrite insert_insert.
  - rewrite lookup_insert_ne by done. destruct (decide (v ∈ vs)).
    + by rewrite (decide_True (P := v ∈ x :: vs)) by set_solver.
    + by rewrite (decide_False (P := v ∈ x :: vs)) by set_solver.
Qed.

(** The two loops over the layers of one breadth-first search. *)
Lemma wr_layers (u : N) ls : disjoint_layers ls → (∀ X, X ∈ ls → u ∉ X) →
  ∀ m : gmap N (gmap N nat), (∀ X v, X ∈ ls → v ∈ X → is_Some (m !! v)) →
  ∃ m', fold_res (λ m dl,
      fold_res (λ m v,
        _ ← assert_res (negb (bool_decide (v = u)));
        w ← unwrap (m !! v);
        Ok (<[v := <[u := S dl.1]> w]> m))
        (hash_iter 2 dl.2) m) (imap pair ls) m = Ok m' ∧
    ∀ v, m' !! v = match layer_of ls v with Some d => insert u d <$> m !! v | None => m !! v end.
Proof.
  intros Hd Hu m Hm.
  match goal with |- ∃ s, fold_res ?f _ _ = _ ∧ _ =>
    destruct (fold_res_inv f (λ pre m', ∀ v, m' !! v = match layer_of (take (length pre) ls) v with
       Some d => insert u d <$> m !! v | None => m !! v end) (imap pair ls) m) as (m' & Hf & HI') end.
  { done. }
  { intros l1 [d X] l2 m1 Hl Hm1. cbn [fst snd].
    assert (imap pair ls !! length l1 = Some (d, X)) as Hdx by (rewrite Hl; by apply list_lookup_middle).
    rewrite list_lookup_imap in Hdx. destruct (ls !! length l1) as [X'|] eqn:HX; [|done]. cbn in Hdx. simplify_eq.
    assert (X ∈ ls) as HXl by (by eapply elem_of_list_lookup_2).
    destruct (wr_layer u (S (length l1)) (hash_iter 2 X)) with (m := m1) as (m2 & Hf & Hm2).
    { rewrite elem_of_hash_iter. by apply Hu. }
    { intros v. rewrite elem_of_hash_iter. intros Hv. rewrite Hm1.
      destruct (Hm X v HXl Hv) as [w ->]. destruct (layer_of _ _); cbn; eauto. }
    exists m2. split; [exact Hf|]. intros v. rewrite Hm2, Hm1, app_length, Nat.add_1_r. cbn [length].
    rewrite (take_S_r _ _ _ HX).
    assert (disjoint_layers (take (length l1) ls ++ [X])) as Hd'.
    { rewrite <- (take_S_r _ _ _ HX). intros i j ? ? ? [? _]%lookup_take_Some [? _]%lookup_take_Some.
      by eapply Hd. }
    assert (disjoint_layers (take (length l1) ls)) as Hd''.
    { intros i j ? ? ? [? _]%lookup_take_Some [? _]%lookup_take_Some. by eapply Hd. }
    assert (length (take (length l1) ls) = length l1) as Htl.
    { rewrite take_length. apply lookup_lt_Some in HX. lia. }
    destruct (layer_of (take (length l1) ls) v) as [d|] eqn:El.
    - assert (layer_of (take (length l1) ls ++ [X]) v = Some d) as ->.
      { apply (layer_of_spec _ _ _ Hd'). apply (layer_of_spec _ _ _ Hd'') in El as (i & Y & -> & Hi & Hv).
        exists i, Y. split_and!; [done| |done]. by apply lookup_app_l_Some. }
      destruct (decide (v ∈ hash_iter 2 X)) as [Hv|]; [|done]. exfalso. rewrite elem_of_hash_iter in Hv.
      apply (layer_of_spec _ _ _ Hd'') in El as (i & Y & -> & [Hi Hlt]%lookup_take_Some & HvY).
      assert (i = length l1) by (by eapply Hd). lia.
    - destruct (decide (v ∈ hash_iter 2 X)) as [Hv|Hv]; rewrite elem_of_hash_iter in Hv.
      + assert (layer_of (take (length l1) ls ++ [X]) v = Some (S (length l1))) as ->; [|done].
        apply (layer_of_spec _ _ _ Hd'). exists (length l1), X. split_and!; [done| |done].
        rewrite lookup_app_r by lia. by rewrite Htl, Nat.sub_diag.
      + destruct (layer_of (take (length l1) ls ++ [X]) v) as [d|] eqn:E2; [|done]. exfalso.
        apply (layer_of_spec _ _ _ Hd') in E2 as (i & Y & -> & Hi & HvY).
        apply lookup_app_Some in Hi as [Hi|[Hge Hi]].
        * assert (layer_of (take (length l1) ls) v = Some (S i)); [|congruence].
          apply (layer_of_spec _ _ _ Hd''). eauto.
        * apply list_lookup_singleton_Some in Hi as [_ ->]. done. }
  exists m'. split; [exact Hf|]. intros v. rewrite HI', imap_length, firstn_all. done.
Qed.

Lemma ws_layer vs : NoDup vs → ∀ (m : gmap N nat) v,
  foldl (λ m v, map_upd 0 S v m) m vs !! v = if decide (v ∈ vs) then Some (S (default 0 (m !! v))) else m !! v.
Proof.
  induction vs as [|x vs IH]; intros Hnd m v; cbn [foldl].
  { by rewrite decide_False by set_solver. }
  apply NoDup_cons in Hnd as [Hx Hnd]. rewrite IH by done. unfold map_upd. destruct (decide (v = x)) as [->|].
  - rewrite decide_False by done. rewrite lookup_insert. by rewrite decide_True by set_solver.
  - rewrite lookup_insert_ne by done. destruct (decide (v ∈ vs)).
    + by rewrite (decide_True (P := v ∈ x :: vs)) by set_solver.
    + by rewrite (decide_False (P := v ∈ x :: vs)) by set_solver.
Qed.
Lemma ws_layers ls : disjoint_layers ls → ∀ (m : gmap N nat) v,
  foldl (λ m X, foldl (λ m v, map_upd 0 S v m) m (hash_iter 3 X)) m ls !! v =
    if layer_of ls v then Some (S (default 0 (m !! v))) else m !! v.
Proof.
  intros Hd m v. revert m. induction ls as [|X ls IH]; intros m; [done|]. cbn [foldl].
  assert (disjoint_layers ls) as Hd'.
  { intros i j ? ? x Hi Hj H1 H2. assert (S i = S j); [|congruence]. by eapply (Hd (S i) (S j)). }
  rewrite (IH Hd'), (ws_layer _ (NoDup_hash_iter _ _)). unfold layer_of. cbn [list_find].
  destruct (decide (v ∈ X)) as [Hv|Hv].
  - rewrite decide_True by (by rewrite elem_of_hash_iter). cbn.
    destruct (list_find (λ X, v ∈ X) ls) as [[j Y]|] eqn:E; [|done]. exfalso.
    apply list_find_Some in E as (Hj & HvY & _). assert (0 = S j); [|done]. by eapply (Hd 0 (S j)).
  - rewrite decide_False by (by rewrite elem_of_hash_iter).
    destruct (list_find (λ X, v ∈ X) ls) as [[j Y]|] eqn:E; done.
Qed.

Section bfs.
Context (L : lgraph) (HL : lgraph_wf L) (r : nat) (Hr : (N.of_nat r + 1 < u32_mod)%N).
Let HW := lwf_graph L HL.

Definition wlayer (u v : N) : option nat :=
  match right_bfs L u r with Ok ls => layer_of (drop 1 ls) v | _ => None end.

Lemma bfs_ok u : vtx L u → ∃ ls, right_bfs L u r = Ok ls ∧ disjoint_layers (drop 1 ls) ∧
  (∀ X, X ∈ drop 1 ls → u ∉ X) ∧ (∀ X v, X ∈ drop 1 ls → v ∈ X → vtx L v) ∧
  ∀ v d, layer_of (drop 1 ls) v = Some d ↔ 1 ≤ d ≤ r ∧ is_dist (right_adj L u) d u v.
Proof.
  intros Hu. destruct (right_bfs_spec L HL u r Hu Hr) as (ls & Hls & Hlen & Hd). exists ls. split; [done|].
  assert (disjoint_layers (drop 1 ls)) as Hdis.
  { intros i j X Y v Hi Hj HX HY. rewrite lookup_drop in Hi, Hj.
    apply (Hd _ _ Hi) in HX. apply (Hd _ _ Hj) in HY. pose proof (is_dist_unique _ _ _ _ _ HX HY). lia. }
  split_and!; [done| | |].
  - intros X HX Hu'. apply elem_of_list_lookup in HX as [i Hi]. rewrite lookup_drop in Hi.
    apply (Hd _ _ Hi) in Hu' as [_ Hm]. specialize (Hm 0 (nsteps_O _ _)). lia.
  - intros X v HX Hv. apply elem_of_list_lookup in HX as [i Hi]. rewrite lookup_drop in Hi.
    apply (Hd _ _ Hi) in Hv as [Hn _]. by eapply right_nsteps_vtx.
  - intros v d. rewrite layer_of_spec by done. setoid_rewrite lookup_drop. split.
    + intros (i & X & -> & Hi & Hv). apply (Hd _ _ Hi) in Hv. split; [|done].
      apply lookup_lt_Some in Hi. lia.
    + intros [? Hv]. destruct d as [|i]; [lia|]. destruct (lookup_lt_is_Some_2 ls (S i) ltac:(lia)) as [X HX].
      exists i, X. split_and!; [done|done|]. by apply (Hd _ _ HX).
Qed.

Lemma wlayer_spec u v d : vtx L u → wlayer u v = Some d ↔ 1 ≤ d ≤ r ∧ is_dist (right_adj L u) d u v.
Proof. intros Hu. unfold wlayer. destruct (bfs_ok u Hu) as (ls & -> & _ & _ & _ & Hl). apply Hl. Qed.

Lemma wreach_sets_wlayer : ∃ m, wreach_sets L r = Ok m ∧
  (∀ v, is_Some (m !! v) ↔ vtx L v) ∧
  ∀ v w, m !! v = Some w → ∀ u d, w !! u = Some d ↔ vtx L u ∧ wlayer u v = Some d.
Proof.
  unfold wreach_sets.
  match goal with |- ∃ s, fold_res ?f _ _ = _ ∧ _ =>
    destruct (fold_res_inv f (λ pre m, (∀ v, is_Some (m !! v) ↔ vtx L v) ∧
       ∀ v w, m !! v = Some w → ∀ u d, w !! u = Some d ↔ u ∈ pre ∧ wlayer u v = Some d)
      (vertices L) (const_map L ∅)) as (m & Hf & Hm & HI') end.
  { split.
    - intros v. rewrite const_map_lookup, <- (vs_vtx L HL). destruct (decide _); split; try done. intros [? [=]].
    - intros v w. rewrite const_map_lookup. destruct (decide _); [|done]. intros [= <-] u d.
      rewrite lookup_empty. set_solver. }
  { intros l1 u l2 m Hl (Hm & HI'). assert (vtx L u) as Hu by (apply (vs_vtx L HL); rewrite Hl; set_solver).
    destruct (bfs_ok u Hu) as (ls & Hls & Hdis & Hnu & Hv & _). rewrite Hls. cbn [mbind res_bind].
    destruct (wr_layers u (drop 1 ls) Hdis Hnu m) as (m' & Hf & Hm').
    { intros X v HX Hx. apply Hm. by eapply Hv. }
    exists m'. split; [exact Hf|]. assert (∀ v, wlayer u v = layer_of (drop 1 ls) v) as Hwl.
    { intros v. unfold wlayer. by rewrite Hls. }
    split.
    - intros v. rewrite Hm', <- Hm. destruct (layer_of _ _); [|done]. by rewrite fmap_is_Some.
    - intros v w' Hw' x d. rewrite Hm', <- Hwl in Hw'. rewrite elem_of_app, elem_of_list_singleton.
      assert (u ∉ l1) as Hul.
      { pose proof (vs_nodup L HL) as Hnd. rewrite Hl in Hnd. apply NoDup_app in Hnd as (_ & Hnd & _).
        intros Hin. apply (Hnd u Hin). set_solver. }
      destruct (wlayer u v) as [d'|] eqn:E.
      + apply fmap_Some in Hw' as (w & Hw & ->). destruct (decide (x = u)) as [->|].
        * rewrite lookup_insert, E. naive_solver.
        * rewrite lookup_insert_ne by done. rewrite (HI' v w Hw). naive_solver.
      + rewrite (HI' v w' Hw'). split; [naive_solver|]. intros [[?| ->] ?]; [done|congruence]. }
  exists m. split; [exact Hf|]. split; [done|]. intros v w Hw u d. by rewrite (HI' v w Hw), (vs_vtx L HL).
Qed.

Lemma wreach_sizes_wlayer : ∃ m, wreach_sizes L r = Ok m ∧
  ∀ v, m !! v = if decide (v ∈ vertices L) then Some (length (filter (λ u, is_Some (wlayer u v)) (vertices L))) else None.
Proof.
  unfold wreach_sizes.
  match goal with |- ∃ s, fold_res ?f _ _ = _ ∧ _ =>
    destruct (fold_res_inv f (λ pre m, 
       ∀ v, m !! v = if decide (v ∈ vertices L) then Some (length (filter (λ u, is_Some (wlayer u v)) pre)) else None)
      (vertices L) (const_map L 0)) as (m & Hf & HI') end.
  { intros v. by rewrite const_map_lookup. }
  { intros l1 u l2 m Hl HI'. assert (vtx L u) as Hu by (apply (vs_vtx L HL); rewrite Hl; set_solver).
    destruct (bfs_ok u Hu) as (ls & Hls & Hdis & Hnu & Hv & Hlo). rewrite Hls. cbn [mbind res_bind].
    eexists. split; [done|]. intros v. rewrite (ws_layers _ Hdis), HI', filter_app.
    assert (wlayer u v = layer_of (drop 1 ls) v) as Hwl by (unfold wlayer; by rewrite Hls).
    rewrite <- Hwl. destruct (decide (v ∈ vertices L)) as [Hin|Hin].
    - destruct (wlayer u v) eqn:E; rewrite app_length; cbn [filter list_filter].
      + rewrite decide_True by (rewrite E; eauto). cbn. f_equal. lia.
      + rewrite decide_False by (rewrite E; by intros [? ?]). cbn. f_equal. lia.
    - destruct (wlayer u v) as [d|] eqn:E; [|done]. exfalso. apply Hin, (vs_vtx L HL).
      apply (wlayer_spec u v d Hu) in E as (_ & E & _). by eapply right_nsteps_vtx. }
  eauto.
Qed.

Lemma wreach_size_eq m v w : wreach_sets L r = Ok m → m !! v = Some w →
  size w = length (filter (λ u, is_Some (wlayer u v)) (vertices L)).
Proof.
  intros Hm Hw. destruct wreach_sets_wlayer as (m' & Hm' & _ & Hwl). rewrite Hm in Hm'. simplify_eq.
  rewrite <- (size_dom (D := gset N)). change (size (dom w)) with (length (elements (dom w))).
  apply Permutation_length, NoDup_Permutation; [apply NoDup_elements|apply NoDup_filter, (vs_nodup L HL)|].
  intros u. rewrite elem_of_elements, elem_of_dom, elem_of_list_filter, (vs_vtx L HL). split.
  - intros [d Hd]. apply (Hwl _ _ Hw) in Hd as [? ?]. split; [eauto|done].
  - intros [[d Hd] ?]. exists d. by apply (Hwl _ _ Hw).
Qed.

Lemma right_dist_wreach u v d : vtx L v →
  (1 ≤ d ∧ is_dist (right_adj L v) d v u) ↔ before (vertices L) v u ∧ least (wreach_walk L u v) d.
Proof.
  intros Hv.
  assert (∀ k, wreach_walk L u v k ↔ nsteps (right_adj L v) k v u) as Hww.
  { intros k. unfold wreach_walk. split.
    - intros (p & Hl & Hh & Hla & Hw & Hp). apply nsteps_sym.
      { intros x y (? & ? & ?). split_and!; [by apply (wf_adj_sym _ HW)|done|done]. }
      apply (walk_nsteps (adj L) (not_left L v)); [apply Hp; destruct p; cbn in *; naive_solver set_solver|]. eauto 10.
    - intros Hn. assert (not_left L v u) as Hnl by (by eapply right_nsteps_nl).
      apply nsteps_sym in Hn.
      2:{ intros x y (? & ? & ?). split_and!; [by apply (wf_adj_sym _ HW)|done|done]. }
      by apply (walk_nsteps (adj L) (not_left L v)) in Hn. }
  unfold least, is_dist. rewrite Hww. setoid_rewrite Hww. split.
  - intros (Hd & Hn & Hmin). split; [|done].
    apply right_nsteps_nl in Hn as [->|?]; [|done]. specialize (Hmin 0 (nsteps_O _ _)). lia.
  - intros (Hb & Hn & Hmin). split; [|done]. destruct d; [|lia]. inversion Hn; subst.
    by apply (ord_irrefl' _ _ (vs_nodup L HL)) in Hb.
Qed.

Lemma wreach_sets_spec : ∃ m, wreach_sets L r = Ok m ∧ (∀ u, is_Some (m !! u) ↔ vtx L u) ∧
  ∀ u w, m !! u = Some w → wreach_spec L u r w.
Proof.
  destruct wreach_sets_wlayer as (m & Hm & Hdom & Hw). exists m. split; [done|]. split; [done|].
  intros u w Hu v d. rewrite (Hw u w Hu). split.
  - intros [Hv Hl]. apply (wlayer_spec v u d Hv) in Hl as [? ?].
    destruct (proj1 (right_dist_wreach u v d Hv)) as [? ?]; [split; [lia|done]|]. split_and!; [done|lia|done].
  - intros (Hb & Hd & Hle). destruct (before_vtx L HL _ _ Hb) as [Hv _]. split; [done|].
    apply (wlayer_spec v u d Hv). destruct (proj2 (right_dist_wreach u v d Hv)) as [? ?]; [done|].
    split; [lia|done].
Qed.
End bfs.
End with_iter.
