(** Lemmas about the conflict graph of a scattered set and about distances read off weak
    reachability sets. *)
From Verif Require Import Base Spec M_Graph M_Iterators M_EditGraph M_Operations M_OrdGraph M_Linear M_Domset
  S_Graph S_Linear S_Reach P_Graph P_EditGraph P_EditGraph2 P_Adds P_Operations P_OrdGraph P_OrdGraph2 P_DegenGraph P_Linear P_Linear2
  P_Wdist P_Cliques T_Algorithms T_OrdGraph P_Greedy.

Lemma nat_min_spec2 a b c : min a b = c → (c = a ∧ a ≤ b) ∨ (c = b ∧ b ≤ a).
Proof. lia. Qed.

Section with_wf.
Context `{HashIter} (L : lgraph) (HL : lgraph_wf L).
Let HW := lwf_graph L HL.

Definition oget (O : gmap N (gmap N nat)) (w x : N) : option nat := m ← O !! w; m !! x.

Lemma oget_upd (O : gmap N (gmap N nat)) w k x w' x' :
  oget (map_upd ∅ (<[x := k]>) w O) w' x' = if decide (w' = w ∧ x' = x) then Some k else oget O w' x'.
Proof.
  unfold oget, map_upd. destruct (decide (w' = w)) as [->|Hne].
  - rewrite lookup_insert. cbn [mbind option_bind]. destruct (decide (x' = x)) as [->|Hx].
    + by rewrite lookup_insert, decide_True.
    + rewrite lookup_insert_ne, decide_False by naive_solver. by destruct (O !! w).
  - rewrite lookup_insert_ne by done. by rewrite decide_False by naive_solver.
Qed.

Lemma oget_fold x (l : list (N * nat)) : NoDup l.*1 → ∀ O w y k,
  oget (foldl (λ O p, map_upd ∅ (<[x := p.2]>) p.1 O) O l) w y = Some k ↔
  (y = x ∧ (w, k) ∈ l) ∨ ((y ≠ x ∨ w ∉ l.*1) ∧ oget O w y = Some k).
Proof.
  induction l as [|[w' k'] l IH]; rewrite ?fmap_cons; cbn [foldl fst snd]; intros Hnd O w y k.
  - split; [intros ?; right; split; [right; set_solver|done]|]. intros [[_ ?]|[_ ?]]; [set_solver|done].
  - apply NoDup_cons in Hnd as [Hw' Hnd]. rewrite (IH Hnd), oget_upd. rewrite !elem_of_cons.
    assert (∀ j, (w', j) ∉ l) as Hno.
    { intros j Hj. apply Hw'. apply elem_of_list_fmap. by exists (w', j). }
    destruct (decide (w = w' ∧ y = x)) as [[-> ->]|Hne]; [naive_solver|].
    destruct (decide (y = x)) as [->|]; [|naive_solver].
    assert (w ≠ w') by naive_solver. naive_solver.
Qed.

Section with_map.
Context (R : nat) (W : gmap N (gmap N nat)) (HWm : wreach_map L R W).

Lemma ds_out_spec scat : (∀ x, x ∈ scat → vtx L x) →
  ∃ O, ds_out W scat = Ok O ∧
    ∀ w x k, oget O w x = Some k ↔ x ∈ scat ∧ ∃ Wx, W !! x = Some Wx ∧ Wx !! w = Some k.
Proof.
  intros Hs. unfold ds_out.
  match goal with |- context [fold_res ?f ?l ?s] => edestruct (fold_res_inv f (λ pre O,
     ∀ w x k, oget O w x = Some k ↔ x ∈ pre ∧ ∃ Wx, W !! x = Some Wx ∧ Wx !! w = Some k) l s) as (O & HO & HH) end.
  - intros w x k. split; [done|set_solver].
  - intros l1 x l2 O Heq HI.
    assert (x ∈ scat) as Hx by (apply (elem_of_hash_iter 24); rewrite Heq; set_solver).
    destruct (wm_get L R W HWm x (Hs x Hx)) as (Wx & HWx & _). rewrite HWx. cbn [unwrap mbind res_bind].
    eexists. split; [done|]. intros w y k. rewrite oget_fold by apply NoDup_map_iter_fst. rewrite HI.
    rewrite elem_of_map_iter, elem_of_app, elem_of_list_singleton.
    assert (x ∉ l1) as Hx1.
    { pose proof (NoDup_hash_iter 24 scat) as Hnd. rewrite Heq in Hnd. apply NoDup_app in Hnd as (_ & Hnd & _).
      intros Hin. apply (Hnd x Hin). left. }
    split.
    + intros [[-> Hk]|[_ (? & ?)]]; [split; [by right|eauto]|split; [by left|done]].
    + intros [[Hy| ->] (Wy & HWy & Hk)].
      * right. split; [left; intros ->; done|]. split; [done|eauto].
      * left. simplify_eq. done.
  - exists O. split; [done|]. intros w x k. rewrite HH, elem_of_hash_iter. done.
Qed.

Lemma ds_conflict_spec strict scat r : (∀ x, x ∈ scat → vtx L x) → 2 * r ≤ R → (strict = true → R = 2 * r) →
  ∃ h, ds_conflict strict W scat r = Ok h ∧ eg_wf h ∧ (∀ x, ev h x ↔ x ∈ scat) ∧
    ∀ x y, ea h x y ↔ x ∈ scat ∧ y ∈ scat ∧ x ≠ y ∧ within (adj L) (2 * r) x y.
Proof.
  intros Hs HR Hst. unfold ds_conflict. destruct (ds_out_spec scat Hs) as (O & -> & HO). cbn [mbind res_bind].
  assert (∀ w Ow x k, O !! w = Some Ow → Ow !! x = Some k → x ∈ scat ∧ x ≠ w ∧ k ≤ R ∧ nsteps (adj L) k x w) as HOe.
  { intros w Ow x k Hw Hx. destruct (proj1 (HO w x k)) as (Hsx & Wx & HWx & Hk); [unfold oget; by rewrite Hw|].
    destruct (wm_entry L HL R W HWm x Wx w k HWx Hk) as (_ & ? & _ & _ & _ & ? & ?). done. }
  set (PE1 := λ (wO : N * gmap N nat) (pq : (N * nat) * (N * nat)) (x y : N), pq.1.2 + pq.2.2 ≤ 2 * r ∧
      ((x = pq.1.1 ∧ y = pq.2.1) ∨ (x = pq.2.1 ∧ y = pq.1.1))).
  set (PE2 := λ (wO : N * gmap N nat) (p : N * nat) (x y : N), p.2 ≤ 2 * r ∧
      ((x = wO.1 ∧ y = p.1) ∨ (x = p.1 ∧ y = wO.1))).
  match goal with |- context [fold_res ?f (map_iter 28 O) _] => assert (adds (fold_res f (map_iter 28 O))
    (λ x, ∃ wO, wO ∈ map_iter 28 O ∧ ((∃ pq, pq ∈ combinations2 (map_iter 26 wO.2) ∧ (∃ y, PE1 wO pq x y)) ∨
       (∃ p, wO.1 ∈ scat ∧ p ∈ map_iter 27 wO.2 ∧ ∃ y, PE2 wO p x y)))
    (λ x y, ∃ wO, wO ∈ map_iter 28 O ∧ ((∃ pq, pq ∈ combinations2 (map_iter 26 wO.2) ∧ PE1 wO pq x y) ∨
       (∃ p, wO.1 ∈ scat ∧ p ∈ map_iter 27 wO.2 ∧ PE2 wO p x y)))) as HA end.
  { apply (adds_fold _ _ (λ (wO : N * gmap N nat) x, (∃ pq, pq ∈ combinations2 (map_iter 26 wO.2) ∧ (∃ y, PE1 wO pq x y)) ∨
       (∃ p, wO.1 ∈ scat ∧ p ∈ map_iter 27 wO.2 ∧ ∃ y, PE2 wO p x y))
      (λ (wO : N * gmap N nat) x y, (∃ pq, pq ∈ combinations2 (map_iter 26 wO.2) ∧ PE1 wO pq x y) ∨
       (∃ p, wO.1 ∈ scat ∧ p ∈ map_iter 27 wO.2 ∧ PE2 wO p x y))).
    intros [w Ow] HwO. apply elem_of_map_iter in HwO. cbn [fst snd].
    apply (adds_seq (fold_res _ _)).
    - apply adds_fold. intros [[x kx] [y ky]] Hpq. unfold PE1; cbn [fst snd].
      destruct (Nat.leb_spec (kx + ky) (2 * r)).
      + eapply adds_ext; [apply adds_edge|done| |]; [intros z|intros z z'; naive_solver].
        split; [|naive_solver]. intros [->| ->]; eauto 10.
      + eapply adds_ext; [apply adds_ret|done| |]; [intros z; split; [done|intros (? & ? & _); lia]|intros z z'; split; [done|intros (? & _); lia]].
    - case_bool_decide as Hw.
      + eapply adds_ext; [apply (adds_fold (λ h p, if p.2 <=? 2 * r then x ← eg_add_edge h w p.1; Ok x.1 else if strict then Panic else Ok h)
             (map_iter 27 Ow) (λ p x, ∃ y, PE2 (w, Ow) p x y) (λ p x y, PE2 (w, Ow) p x y))|done| |].
        * intros [x k] Hp%elem_of_map_iter. unfold PE2; cbn [fst snd].
          destruct (Nat.leb_spec k (2 * r)).
          -- eapply adds_ext; [apply adds_edge|done| |]; [intros z|intros z z'; naive_solver].
             split; [|naive_solver]. intros [->| ->]; eauto 10.
          -- destruct strict.
             ++ exfalso. destruct (HOe w Ow x k HwO Hp) as (_ & _ & ? & _). specialize (Hst eq_refl). lia.
             ++ eapply adds_ext; [apply adds_ret|done| |]; [intros z; split; [done|intros (? & ? & _); lia]|intros z z'; split; [done|intros (? & _); lia]].
        * cbn [fst snd]. naive_solver.
        * cbn [fst snd]. naive_solver.
      + eapply adds_ext; [apply adds_ret|done| |]; naive_solver. }
  pose proof (adds_seq _ _ _ _ _ _ (adds_add_vertices (hash_iter 25 scat)) HA) as HB. cbn [mbind res_bind] in HB.
  apply adds_new in HB as (h & Hok & Hh & HV & HE). cbn [mbind res_bind]. rewrite Hok. cbn [mbind res_bind].
  assert (∀ wO x y, wO ∈ map_iter 28 O → (∃ pq, pq ∈ combinations2 (map_iter 26 wO.2) ∧ PE1 wO pq x y) ∨
       (∃ p, wO.1 ∈ scat ∧ p ∈ map_iter 27 wO.2 ∧ PE2 wO p x y) →
       x ∈ scat ∧ y ∈ scat ∧ x ≠ y ∧ within (adj L) (2 * r) x y) as Hedge.
  { intros [w Ow] x y HwO%elem_of_map_iter. cbn [fst snd]. intros [([[a ka] [b kb]] & Hpq & Hle & Hxy)|([a ka] & Hw & Hp & Hle & Hxy)]; cbn [fst snd] in *.
    - apply elem_of_combinations2_1 in Hpq as (Ha & Hb & Hne); [|apply NoDup_map_iter]. rewrite elem_of_map_iter in Ha, Hb.
      destruct (HOe w Ow a ka HwO Ha) as (? & _ & _ & Hna). destruct (HOe w Ow b kb HwO Hb) as (? & _ & _ & Hnb).
      assert (a ≠ b) by (intros ->; simplify_eq).
      assert (within (adj L) (2 * r) a b) as Hab.
      { apply (within_mono _ (ka + kb)); [done|]. eapply within_trans; [exists ka; split; done|].
        exists kb. split; [done|]. apply nsteps_sym; [apply (wf_adj_sym _ HW)|done]. }
      destruct Hxy as [[-> ->]|[-> ->]]; [done|]. split_and!; [done|done|done|]. apply within_sym; [apply (wf_adj_sym _ HW)|done].
    - rewrite elem_of_map_iter in Hp. destruct (HOe w Ow a ka HwO Hp) as (? & ? & _ & Hna).
      assert (within (adj L) (2 * r) a w) as Haw by (exists ka; split; done).
      destruct Hxy as [[-> ->]|[-> ->]]; [|done]. split_and!; [done|done|done|]. apply within_sym; [apply (wf_adj_sym _ HW)|done]. }
  assert (∀ x, ev h x ↔ x ∈ scat) as HV'.
  { intros x. rewrite HV, elem_of_hash_iter. split; [|by left].
    intros [?|(wO & HwO & HH)]; [done|]. destruct HH as [(pq & Hpq & y & HH)|(p & Hw & Hp & y & HH)].
    - apply (Hedge wO x y HwO). left. eauto.
    - apply (Hedge wO x y HwO). right. eauto. }
  assert (eg_num_vertices h = size scat) as Hn.
  { pose proof (eg_graph_wf h Hh) as Hg. change (eg_num_vertices h) with (num_vertices (eg_graph h)).
    rewrite (wf_num_vertices _ Hg). assert (vertices (eg_graph h) ≡ₚ elements scat) as Hp.
    { apply NoDup_Permutation; [apply (wf_vertices_nodup _ Hg)|apply NoDup_elements|]. intros x.
      rewrite elem_of_elements, <- HV'. by apply eg_vertices. }
    by rewrite Hp. }
  rewrite Hn, Nat.eqb_refl. cbn [assert_res mbind res_bind]. exists h. split; [done|]. split; [done|]. split; [done|].
  intros x y. rewrite HE. split.
  - intros [[]|(wO & HwO & HH)]. by apply (Hedge wO).
  - intros (Hx & Hy & Hne & n & Hn2 & Hns). right.
    destruct (wm_dist L HL R W HWm x y n (Hs x Hx) Hne) as (Wx & Wy & HWx & HWy & Hc); [lia|done|].
    assert (∀ w z k Wz, z ∈ scat → W !! z = Some Wz → Wz !! w = Some k → ∃ Ow, O !! w = Some Ow ∧ Ow !! z = Some k) as Hin.
    { intros w z k Wz Hz HWz Hk. pose proof (proj2 (HO w z k)) as HH. unfold oget in HH.
      destruct (O !! w) as [Ow|]; [exists Ow; split; [done|]|]; (feed specialize HH; [eauto|]); done. }
    destruct Hc as [(k & Hk & ?)|[(k & Hk & ?)|(w & kx & ky & Hkx & Hky & ?)]].
    + destruct (Hin y x k Wx Hx HWx Hk) as (Ow & HOw & Hk'). exists (y, Ow). split; [by apply elem_of_map_iter|]. right.
      exists (x, k). cbn [fst snd]. split; [done|]. split; [by apply elem_of_map_iter|]. split; cbn [fst snd]; [lia|by right].
    + destruct (Hin x y k Wy Hy HWy Hk) as (Ow & HOw & Hk'). exists (x, Ow). split; [by apply elem_of_map_iter|]. right.
      exists (y, k). cbn [fst snd]. split; [done|]. split; [by apply elem_of_map_iter|]. split; cbn [fst snd]; [lia|by left].
    + destruct (Hin w x kx Wx Hx HWx Hkx) as (Ow & HOw & Hkx'). destruct (Hin w y ky Wy Hy HWy Hky) as (Ow' & HOw' & Hky').
      simplify_eq. exists (w, Ow). split; [by apply elem_of_map_iter|]. left. cbn [fst snd].
      destruct (proj2 (elem_of_combinations2 (map_iter 26 Ow) (x, kx) (y, ky) (NoDup_map_iter 26 Ow))) as [Hp|Hp].
      * rewrite !elem_of_map_iter. split_and!; [done|done|]. intros [= ? ?]. done.
      * exists ((x, kx), (y, ky)). split; [done|]. split; cbn [fst snd]; [lia|by left].
      * exists ((y, ky), (x, kx)). split; [done|]. split; cbn [fst snd]; [lia|by right].
Qed.

(** ** [small_distance] *)
Lemma small_distance_spec d x y : d ≤ R → (N.of_nat (2 * R) < u32_mod)%N → vtx L x → vtx L y →
  ∃ o, small_distance W d x y = Ok o ∧ ∀ k, o = Some k ↔ k ≤ d ∧ is_dist (adj L) k x y.
Proof.
  intros Hd HR Hx Hy. unfold small_distance. case_bool_decide as Hxy.
  { subst y. exists (Some 0). split; [done|]. intros k. split.
    - intros [= <-]. split; [lia|]. split; [constructor|lia].
    - intros [_ [_ Hk]]. specialize (Hk 0 (nsteps_O _ _)). f_equal. lia. }
  destruct (wm_get L R W HWm x Hx) as (Wx & HWx & _). destruct (wm_get L R W HWm y Hy) as (Wy & HWy & _).
  rewrite HWx, HWy. cbn [unwrap mbind res_bind].
  set (omin := λ (o : option nat) (k : nat), Some (match o with Some d => min d k | None => k end)).
  (* [c] is one of the candidates seen so far *)
  set (cand0 := λ k, Wx !! y = Some k ∨ Wy !! x = Some k).
  set (cand := λ (pre : list (N * nat)) k, cand0 k ∨ ∃ w kx ky, (w, kx) ∈ pre ∧ Wy !! w = Some ky ∧ k = kx + ky).
  set (good := λ (P : nat → Prop) (o : option nat), match o with Some k => least P k | None => ∀ k, ¬ P k end).
  assert (∀ P Q o k, good P o → (∀ j, Q j ↔ P j ∨ j = k) → good Q (omin o k)) as Hmin.
  { intros P Q o k Ho HQ. destruct o as [e|]; cbn.
    - destruct Ho as [He Hm]. split.
      + apply HQ. destruct (Nat.min_spec e k) as [[_ ->]|[_ ->]]; auto.
      + intros j Hj%HQ. destruct Hj as [Hj| ->]; [specialize (Hm j Hj)|]; lia.
    - cbn in Ho. split; [apply HQ; by right|]. intros j [Hj| ->]%HQ; [by apply Ho in Hj|done]. }
  assert (good cand0 (match Wy !! x with Some k => omin (Wx !! y) k | None => Wx !! y end)) as H0.
  { assert (good (λ k, Wx !! y = Some k) (Wx !! y)) as H1.
    { destruct (Wx !! y) as [k|]; cbn; [|done]. split; [done|]. by intros j [= ->]. }
    destruct (Wy !! x) as [k|] eqn:E.
    - eapply Hmin; [exact H1|]. intros j. unfold cand0. rewrite ?E. naive_solver.
    - destruct (Wx !! y) as [e|] eqn:E2; cbn.
      + split; [left; done|]. intros j [Hj|Hj]; simplify_eq; done.
      + intros k [Hj|Hj]; simplify_eq. }
  match goal with |- context [fold_res ?f ?l ?s] => edestruct (fold_res_inv f (λ pre o, good (cand pre) o) l s) as (o & Ho & HH) end.
  - assert (∀ o, good cand0 o → good (cand []) o) as Hgo; [|exact (Hgo _ H0)]. intros [e|]; cbn.
    + intros [H01 H02]. split; [by left|]. intros j [Hj|(? & ? & ? & ? & _)]; [auto|set_solver].
    + intros H1 j [Hj|(? & ? & ? & ? & _)]; [by apply (H1 j)|set_solver].
  - intros l1 [w kx] l2 o Heq Ho. cbn [fst snd].
    assert ((w, kx) ∈ map_iter 29 Wx) as Hin by (rewrite Heq; set_solver). rewrite elem_of_map_iter in Hin.
    destruct (Wy !! w) as [ky|] eqn:Ew.
    + destruct (wm_entry L HL R W HWm _ _ _ _ HWx Hin) as (_ & _ & _ & _ & _ & ? & _).
      destruct (wm_entry L HL R W HWm _ _ _ _ HWy Ew) as (_ & _ & _ & _ & _ & ? & _).
      replace (N.of_nat (kx + ky) <? u32_mod)%N with true by (symmetry; apply N.ltb_lt; lia). cbn [assert_res mbind res_bind].
      eexists. split; [done|]. eapply Hmin; [exact Ho|]. intros j. unfold cand. split.
      * intros [?|(w' & kx' & ky' & [Hp|Hp]%elem_of_app & Hw & ->)]; [by left; left|left; right; eauto 10|].
        apply elem_of_list_singleton in Hp. simplify_eq. by right.
      * intros [[?|(w' & kx' & ky' & Hp & Hw & ->)]| ->]; [by left|right; exists w', kx', ky'; split; [set_solver|done]|].
        right. exists w, kx, ky. split; [set_solver|done].
    + exists o. split; [done|].
      assert (∀ j, cand (l1 ++ [(w, kx)]) j ↔ cand l1 j) as Hc.
      { intros j. unfold cand. split.
        - intros [?|(w' & kx' & ky' & [Hp|Hp]%elem_of_app & Hw & ->)]; [by left|right; eauto 10|].
          apply elem_of_list_singleton in Hp. simplify_eq.
        - intros [?|(w' & kx' & ky' & Hp & Hw & ->)]; [by left|]. right. exists w', kx', ky'. split; [set_solver|done]. }
      destruct o as [e|]; cbn in *; [|intros j; rewrite Hc; apply Ho].
      destruct Ho as [? Hm]. split; [by apply Hc|]. intros j ?%Hc. auto.
  - unfold omin in Ho. rewrite Ho. cbn [mbind res_bind]. eexists. split; [done|].
    (* a candidate is the length of a walk *)
    assert (∀ k, cand (map_iter 29 Wx) k → nsteps (adj L) k x y) as Hw.
    { intros k [[Hk|Hk]|(w & kx & ky & Hp & Hky & ->)].
      - by apply (wm_entry L HL R W HWm _ _ _ _ HWx Hk).
      - apply nsteps_sym; [apply (wf_adj_sym _ HW)|]. by apply (wm_entry L HL R W HWm _ _ _ _ HWy Hk).
      - rewrite elem_of_map_iter in Hp. destruct (wm_entry L HL R W HWm _ _ _ _ HWx Hp) as (_ & _ & _ & _ & _ & _ & Hn1).
        destruct (wm_entry L HL R W HWm _ _ _ _ HWy Hky) as (_ & _ & _ & _ & _ & _ & Hn2).
        eapply nsteps_trans; [done|]. apply nsteps_sym; [apply (wf_adj_sym _ HW)|done]. }
    assert (∀ n, n ≤ R → nsteps (adj L) n x y → ∃ k, k ≤ n ∧ cand (map_iter 29 Wx) k) as Hc.
    { intros n Hn Hns. destruct (wm_dist L HL R W HWm x y n Hx Hxy Hn Hns) as (Wx' & Wy' & ? & ? & Hc). simplify_eq.
      destruct Hc as [(k & Hk & ?)|[(k & Hk & ?)|(w & kx & ky & Hkx & Hky & ?)]].
      - exists k. split; [done|]. left. by left.
      - exists k. split; [done|]. left. by right.
      - exists (kx + ky). split; [done|]. right. exists w, kx, ky. by rewrite elem_of_map_iter. }
    intros k. destruct o as [e|]; cbn in HH.
    + destruct HH as [He Hm]. destruct (Nat.ltb_spec d e) as [Hlt|Hge].
      * split; [done|]. intros [Hk [Hns _]]. destruct (Hc k) as (j & ? & Hj); [lia|done|]. specialize (Hm j Hj). lia.
      * split.
        -- intros [= <-]. split; [done|]. split; [by apply Hw|]. intros n Hn.
           destruct (decide (n ≤ R)) as [HnR|]; [|lia]. destruct (Hc n HnR Hn) as (j & ? & Hj). specialize (Hm j Hj). lia.
        -- intros [Hk [Hns Hlow]]. f_equal. specialize (Hlow e (Hw e He)). destruct (Hc k) as (j & ? & Hj); [lia|done|].
           specialize (Hm j Hj). lia.
    + split; [done|]. intros [Hk [Hns _]]. destruct (Hc k) as (j & ? & Hj); [lia|done|]. by apply HH in Hj.
Qed.

End with_map.
End with_wf.

(** ** The colouring of the conflict graph *)
Section colours.
Context `{HashIter}.

Lemma colour_greedy_no_diverge L : lgraph_wf L → colour_greedy L ≠ Diverge.
Proof.
  intros HL. unfold colour_greedy.
  match goal with |- (fold_res ?f ?l ?s ≫= _) ≠ _ => assert (fold_res f l s ≠ Diverge) as Hd; [|by destruct (fold_res f l s)] end.
  assert (∀ vs s, (∀ v, v ∈ vs → vtx L v) →
    fold_res (λ st v,
      let '(colours, used) := (st : gmap N N * list N) in
      ns ← left_neighbours L v;
      ncols ← mapM (λ x, unwrap (colours !! x)) ns;
      if length ncols =? length used then
        let c := N.of_nat (length used) in
        Ok (<[v := c]> colours, used ++ [c])
      else
        Ok (match head (filter (λ c, c ∉ ncols) used) with
            | Some c => <[v := c]> colours
            | None => colours
            end, used)) vs s ≠ Diverge) as HH.
  { induction vs as [|v vs IH]; intros [c used] Hv; [done|]. cbn [fold_res].
    destruct (lwf_left L HL v) as (ns & -> & _); [apply Hv; left|]. cbn [mbind res_bind].
    destruct (mapM (λ x, unwrap (c !! x)) ns) as [cs| |] eqn:E; cbn [mbind res_bind].
    - destruct (_ =? _); cbn [mbind res_bind]; apply IH; set_solver.
    - done.
    - exfalso. revert E. clear. induction ns as [|x ns IH]; [done|]. cbn. destruct (c !! x); cbn; [|done].
      destruct (mapM _ ns); cbn; [done|done|]. intros _. by apply IH. }
  apply HH. intros v. apply (vs_vtx L HL).
Qed.

Lemma eg_loopless h : eg_wf h → (∀ x, ¬ ea h x x) → loopless (eg_graph h).
Proof. intros Hh Hl u Hu. by apply (Hl u). Qed.

(** The colouring, if there is one, is a proper colouring of some of the vertices. *)
Lemma ds_colours_spec h : eg_wf h → (∀ x, ¬ ea h x x) →
  ds_colours h = Panic ∨ ∃ c, ds_colours h = Ok c ∧ (∀ v a, c !! v = Some a → ev h v ∧ (a < N.of_nat (eg_num_vertices h))%N) ∧
    ∀ u v a b, ea h u v → c !! u = Some a → c !! v = Some b → a ≠ b.
Proof.
  intros Hh Hl. pose proof (eg_graph_wf h Hh) as Hg. unfold ds_colours.
  destruct (C34_by_degeneracy (eg_graph h) Hg (eg_loopless h Hh Hl)) as (g & lo & up & order & core & Hd & Hok & HL & Hvs & HH).
  rewrite Hok. cbn [mbind res_bind]. destruct (colour_greedy (og_lgraph g)) as [c| |] eqn:E; [|by left|by apply colour_greedy_no_diverge in E].
  right. exists c. split; [done|]. destruct (colour_greedy_inv (og_lgraph g) HL c E) as (used & Hused & Hdom & Hprop & Hlen). cbn [fst snd] in *.
  split.
  - intros v a Hv. destruct (Hdom v a Hv) as [Hv' Hau]. split; [clear Hau|clear Hv'].
    { apply (vs_vtx (og_lgraph g) HL) in Hv'.
    unfold vtx in Hv'. change (contains (og_graph g) v = true) in Hv'. destruct HH as [Hc _]. by rewrite Hc in Hv'. }
    rewrite Hused in Hau. apply elem_of_list_fmap in Hau as (i & -> & Hi%elem_of_seq).
    assert (length used ≤ eg_num_vertices h) as Hle; [|lia].
    destruct Hlen as [-> |(u & l & Hu & Hul & Hlen)]; [cbn; lia|]. rewrite Hlen.
    destruct (lwf_left (og_lgraph g) HL u Hu) as (l' & Hul' & Hlo). rewrite Hul in Hul'. injection Hul' as <-.
    pose proof (lists_in_order_NoDup _ _ _ (vs_nodup (og_lgraph g) HL) Hlo) as Hnd. destruct Hlo as [Hlo _].
    change (eg_num_vertices h) with (num_vertices (eg_graph h)). rewrite (wf_num_vertices _ Hg).
    change (length (u :: l) ≤ length (vertices (eg_graph h))). apply submseteq_length, NoDup_submseteq.
    + apply NoDup_cons. split; [|done]. intros Hin%Hlo. destruct Hin as [_ Hb].
      by apply (ord_irrefl' _ _ (vs_nodup (og_lgraph g) HL)) in Hb.
    + assert (∀ x, vtx (og_lgraph g) x → x ∈ vertices (eg_graph h)) as Hvx.
      { intros x Hx. apply (wf_vertices _ Hg). destruct HH as [Hc _]. unfold vtx in *. rewrite <- Hc. exact Hx. }
      intros x [->|[_ Hb]%Hlo]%elem_of_cons; [by apply Hvx|]. apply Hvx. apply (before_vtx (og_lgraph g) HL) in Hb as [? _]. done.
  - intros u v a b Huv Hu Hv. apply (Hprop u v a b); [|done|done]. destruct HH as [_ Ha]. unfold adj.
    change (adjacent (og_lgraph g) u v) with (adjacent (og_graph g) u v). by rewrite Ha.
Qed.

(** At most 130 vertices are always coloured. *)
Lemma ds_colours_total h : eg_wf h → (∀ x, ¬ ea h x x) → eg_num_vertices h ≤ 130 →
  ∃ c, ds_colours h = Ok c ∧ ∀ v, is_Some (c !! v) ↔ ev h v.
Proof.
  intros Hh Hl Hn. pose proof (eg_graph_wf h Hh) as Hg.
  destruct (by_degeneracy_greedy (eg_graph h) Hg (eg_loopless h Hh Hl)) as (g & c & Hok & _ & Hc & Hdom & _).
  { intros X k HX Hk. apply set_choose_L in HX as [v Hv]. destruct (Hk v Hv) as (_ & l & Hnd & Hkl & Hl2).
    change (eg_num_vertices h) with (num_vertices (eg_graph h)) in Hn. rewrite (wf_num_vertices _ Hg) in Hn.
    assert (length (v :: l) ≤ length (vertices (eg_graph h))) as Hle; [|cbn [length] in Hle; lia].
    apply submseteq_length. apply NoDup_submseteq.
    - apply NoDup_cons. split; [|done]. intros Hin. destruct (Hl2 v Hin) as [_ Ha]. by apply (Hl v).
    - intros x [->|Hx]%elem_of_cons; apply (wf_vertices _ Hg); [by apply Hk|]. destruct (Hl2 x Hx) as [HxX _]. by apply Hk. }
  exists c. unfold ds_colours. rewrite Hok. cbn [mbind res_bind]. split; [done|]. exact Hdom.
Qed.
End colours.
