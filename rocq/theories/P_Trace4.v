(** [compute_traces], [compute_neighbour_count] and [is_shattered] of the trace oracle. *)
From Verif Require Import Base Spec M_Graph M_Iterators M_EditGraph M_Algorithms M_OrdGraph M_DegenGraph M_Linear M_Trace
  S_Graph S_Linear S_Reach P_EditGraph P_Graph P_Iterators P_Degeneracy P_OrdGraph P_OrdGraph2 P_DegenGraph2 P_Linear P_Linear2 P_Trace P_Trace2 P_Trace3.

Lemma existsb_ct_bool (P : Prop) `{Decision P} b : (b = true ↔ P) → b = bool_decide P.
Proof. intros HP. apply eq_true_iff_eq. by rewrite bool_decide_eq_true. Qed.
Lemma prefix_seq {A} (l : list A) is i is' : seq 1 (length l) = is ++ i :: is' → i = S (length is) ∧ length is < length l.
Proof.
  intros His. split.
  - assert (seq 1 (length l) !! length is = Some i) as Hl by (rewrite His; by apply list_lookup_middle). apply lookup_seq in Hl as [-> _]. lia.
  - apply (f_equal length) in His. rewrite seq_length, app_length in His. cbn in His. lia.
Qed.

Lemma list_filter_iff' {A} (P Q : A → Prop) `{∀ x, Decision (P x), ∀ x, Decision (Q x)} (l : list A) :
  (∀ x, x ∈ l → P x ↔ Q x) → filter P l = filter Q l.
Proof.
  induction l as [|x l IH]; intros Hl; [done|]. assert (P x ↔ Q x) as Hx by (apply Hl; set_solver).
  destruct (decide (P x)) as [Hp|Hp].
  - rewrite !filter_cons_True by tauto. f_equal. apply IH. set_solver.
  - rewrite !filter_cons_False by tauto. apply IH. set_solver.
Qed.

Section with_iter.
Context `{HI : HashIter}.
Context (g : degengraph) (HL : lgraph_wf (dg_lgraph g)).
Local Notation L := (dg_lgraph g).
Local Notation vs := (vertices (dg_lgraph g)).
Local Notation lf := (lf g).
Let HW := lwf_graph L HL.
Context (Hao : ∀ u v, dg_adjacent_ordered g u v = true ↔ adj L u v ∧ before vs u v).
Context (m : gmap N sctx) (Hm : oracle_ok g (λ a, filter (λ x, a ∈ lf x) (reverse vs)) m).
Context (inner : list N) (Hs : StronglySorted (before vs) inner) (Hv : ∀ x, x ∈ inner → vtx L x).

Lemma inner_ctx i a : inner !! i = Some a → ∃ c, m !! a = Some c ∧ sctx_ok g (filter (λ x, a ∈ lf x) (reverse vs)) a c.
Proof. intros Hi. apply Hm, Hv. by eapply elem_of_list_lookup_2. Qed.
Lemma right_xs a x : x ∈ filter (λ x, a ∈ lf x) (reverse vs) → vtx L x ∧ a ∈ lf x.
Proof. intros [? Hx]%elem_of_list_filter. rewrite elem_of_reverse in Hx. split; [by apply (vs_vtx L HL)|done]. Qed.

Lemma tr_right_spec : ∃ T, tr_right m g inner {[ [] := num_vertices (dg_graph g) ]} = Ok T ∧ right_inv g inner T.
Proof.
  unfold tr_right.
  match goal with |- ∃ m, fold_res ?f ?l ?s = _ ∧ _ => destruct (fold_res_inv f (λ is T, right_inv g (take (length is) inner) T) l s) as (T & HT & Hinv) end.
  - apply (right_inv_nil g HL).
  - intros is i is' T His IH. destruct (prefix_seq _ _ _ _ His) as [-> Hlt].
    rewrite Nat.sub_succ, Nat.sub_0_r. apply lookup_lt_is_Some in Hlt as [a Ha]. rewrite Ha. cbn [unwrap mbind res_bind].
    destruct (inner_ctx _ _ Ha) as (c & Hc & Hok). rewrite Hc. cbn [unwrap mbind res_bind].
    destruct (count_neighbours_spec g HL c _ a (length is) inner Hok (right_xs a) Hs Ha) as (cs & -> & Hcs). cbn [mbind res_bind].
    rewrite app_length. cbn [length]. rewrite Nat.add_1_r. rewrite (take_S_r _ _ _ Ha) in *.
    apply (step_spec g HL); [|intros x Hx; apply Hv|done|done].
    + rewrite <- (take_S_r _ _ _ Ha). by apply ss_take.
    + rewrite <- (take_S_r _ _ _ Ha) in Hx. apply elem_of_take in Hx as (? & ? & _). by eapply elem_of_list_lookup_2.
  - exists T. split; [done|]. by rewrite seq_length, firstn_all in Hinv.
Qed.

Lemma tr_left_set_spec : ∃ X, tr_left_set g inner = Ok X ∧ ∀ y, y ∈ X ↔ y ∈ inner ∨ ∃ u, u ∈ inner ∧ y ∈ lf u.
Proof.
  unfold tr_left_set.
  match goal with |- ∃ m, fold_res ?f ?l ?s = _ ∧ _ => destruct (fold_res_inv f (λ us (X : gset N), ∀ y, y ∈ X ↔ y ∈ us ∨ ∃ u, u ∈ us ∧ y ∈ lf u) l s) as (X & HX & Hinv) end.
  - set_solver.
  - intros us u us' X Hus IH. rewrite (lf_ok g HL u) by (apply Hv; rewrite Hus; set_solver). cbn [mbind res_bind].
    eexists. split; [done|]. intros y. rewrite !elem_of_union, elem_of_singleton, elem_of_list_to_set, IH, elem_of_app, elem_of_list_singleton.
    split.
    + intros [->|[[?|(w & ? & ?)]|?]]; [by left; right|by left; left|right; exists w; set_solver|right; exists u; set_solver].
    + intros [[?| ->]|(w & [?| ->%elem_of_list_singleton]%elem_of_app & ?)]; [right; left; by left|by left|right; left; right; by exists w|by right; right].
  - by exists X.
Qed.

(** The full trace of a vertex. *)
Definition trA (y : N) : list N := filter (λ u, adjacent L u y = true) inner.
Lemma adj_lf u y : vtx L y → u ∈ lf y ↔ dg_adjacent_ordered g u y = true.
Proof. intros Hy. rewrite (elem_of_lf g HL y u Hy), Hao. split; intros [? ?]; (split; [by apply (wf_adj_sym L HW)|done]). Qed.
Lemma trA_far y : vtx L y → (∀ u, u ∈ inner → y ∉ lf u) → trA y = tr g inner y.
Proof.
  intros Hy Hf. unfold trA, tr. apply list_filter_iff'. intros u Hu. rewrite (elem_of_lf g HL y u Hy). split.
  - intros Ha. change (adj L u y) in Ha. split; [by apply (wf_adj_sym L HW)|].
    destruct (vs_before_total g HL u y) as [?|Hb]; [by apply Hv|done| |done|].
    + intros ->. by apply (lwf_loopless L HL y).
    + exfalso. apply (Hf u Hu). apply (elem_of_lf g HL u y (Hv u Hu)). done.
  - intros [Ha _]. by apply (wf_adj_sym L HW).
Qed.

Lemma left_fold y : vtx L y →
  foldl (λ t u, if adjacent (dg_graph g) u y then (t.1 ++ [u], if dg_adjacent_ordered g u y then t.2 ++ [u] else t.2) else t)
    (([], []) : list N * list N) inner = (trA y, tr g inner y).
Proof.
  intros Hy. unfold trA, tr. clear Hs Hv. induction inner as [|u l IH] using rev_ind; [done|].
  rewrite foldl_app. cbn [foldl]. rewrite !filter_app, IH. cbn [fst snd]. change (adjacent L u y) with (adjacent (dg_graph g) u y).
  destruct (adjacent (dg_graph g) u y) eqn:Ea.
  - rewrite (filter_cons_True _ u []) by done. destruct (dg_adjacent_ordered g u y) eqn:Eo.
    + rewrite (filter_cons_True _ u []) by (by apply adj_lf). done.
    + rewrite (filter_cons_False _ u []) by (rewrite adj_lf by done; congruence). cbn. by rewrite app_nil_r.
  - rewrite (filter_cons_False _ u []) by (intros Ha; change (adjacent (dg_graph g) u y = true) in Ha; congruence).
    rewrite (filter_cons_False _ u []). { cbn. by rewrite !app_nil_r. }
    rewrite (elem_of_lf g HL y u Hy). intros [Ha _]. apply (wf_adj_sym L HW) in Ha. change (adjacent (dg_graph g) u y = true) in Ha. congruence.
Qed.

(** ** Phase two *)
Definition lcnt (P S' : list N) (x : N) : bool :=
  if bool_decide (x ∈ P) then negb (bool_decide (x ∈ inner)) && bool_decide (trA x = S') else bool_decide (tr g inner x = S').
Record left_inv (P : list N) (T : gmap (list N) nat) : Prop := {
  li_val : ∀ S' n, T !! S' = Some n → n = ct (lcnt P S') vs;
  li_sub : ∀ S' n, T !! S' = Some n → S' `sublist_of` inner;
  li_key : ∀ x, x ∈ vs → is_Some (T !! tr g inner x);
  li_keyA : ∀ x, x ∈ P → x ∉ inner → is_Some (T !! trA x);
}.
Lemma left_step P T y : left_inv P T → vtx L y → y ∉ P → ∃ T', tr_left_vertex g inner T y = Ok T' ∧ left_inv (P ++ [y]) T'.
Proof.
  intros [Hval Hsub Hkey HkeyA] Hy HyP. unfold tr_left_vertex. rewrite (left_fold y Hy). cbn [fst snd].
  pose proof (proj2 (vs_vtx L HL y) Hy) as Hyv. pose proof (vs_nodup L HL) as Hnd.
  set (T1 := if bool_decide (y ∈ inner) then T else map_upd 0 (λ k, k + 1) (trA y) T).
  assert (∀ S', ct (lcnt P S') vs + (if negb (bool_decide (y ∈ inner)) && bool_decide (trA y = S') then 1 else 0) =
    ct (lcnt (P ++ [y]) S') vs + (if bool_decide (tr g inner y = S') then 1 else 0)) as Hct.
  { intros S'. pose proof (ct_change (lcnt P S') (lcnt (P ++ [y]) S') vs y Hnd Hyv) as Hc.
    assert (lcnt P S' y = bool_decide (tr g inner y = S')) as E1 by (unfold lcnt; by rewrite (bool_decide_eq_false_2 (y ∈ P))).
    assert (lcnt (P ++ [y]) S' y = negb (bool_decide (y ∈ inner)) && bool_decide (trA y = S')) as E2
      by (unfold lcnt; rewrite (bool_decide_eq_true_2 (y ∈ P ++ [y])) by set_solver; done).
    rewrite E1, E2 in Hc. apply Hc. intros x _ Hne. unfold lcnt. rewrite (bool_decide_ext (x ∈ P ++ [y]) (x ∈ P)); [done|set_solver]. }
  assert (∀ S', T !! S' = None → ct (lcnt P S') vs = 0) as Hnone.
  { intros S' Hn. apply ct_zero. intros x Hx. unfold lcnt. destruct (bool_decide_reflect (x ∈ P)) as [HxP|HxP].
    - destruct (bool_decide_reflect (x ∈ inner)) as [|Hxi]; [done|]. cbn. apply bool_decide_eq_false_2. intros <-.
      destruct (HkeyA x HxP Hxi). congruence.
    - apply bool_decide_eq_false_2. intros <-. destruct (Hkey x Hx). congruence. }
  assert (∀ S' n, T1 !! S' = Some n → n = ct (lcnt P S') vs + (if negb (bool_decide (y ∈ inner)) && bool_decide (trA y = S') then 1 else 0)
    ∧ S' `sublist_of` inner) as H1.
  { intros S' n. unfold T1. destruct (bool_decide_reflect (y ∈ inner)) as [Hyi|Hyi]; cbn [negb andb].
    - intros Hn. rewrite Nat.add_0_r. eauto.
    - unfold map_upd. rewrite lookup_insert_Some. intros [[<- <-]|[Hne Hn]].
      + rewrite bool_decide_eq_true_2 by done. split; [|apply filter_sublist].
        destruct (T !! trA y) as [k|] eqn:Ek; cbn [default id]; [pose proof (Hval _ _ Ek); lia|by rewrite (Hnone _ Ek)].
      + rewrite bool_decide_eq_false_2 by done. rewrite Nat.add_0_r. eauto. }
  assert (∀ S', is_Some (T !! S') → is_Some (T1 !! S')) as HT1.
  { intros S' HS. unfold T1. case_bool_decide; [done|]. unfold map_upd. destruct (decide (trA y = S')) as [->|Hne].
    - rewrite lookup_insert. by eexists.
    - by rewrite lookup_insert_ne. }
  destruct (HT1 _ (Hkey y Hyv)) as [k Hk]. rewrite Hk. cbn [unwrap mbind res_bind].
  destruct (H1 _ _ Hk) as [Hkv _]. pose proof (Hct (tr g inner y)) as Hc0. rewrite (bool_decide_eq_true_2 (tr g inner y = _)) in Hc0 by done.
  unfold sub_checked. rewrite (proj2 (Nat.leb_le 1 k)) by lia. cbn [mbind res_bind]. eexists. split; [done|].
  assert (∀ S', is_Some (T1 !! S') → is_Some (<[tr g inner y := k - 1]> T1 !! S')) as HT2.
  { intros S' HS. destruct (decide (tr g inner y = S')) as [->|Hne]; [rewrite lookup_insert; by eexists|by rewrite lookup_insert_ne]. }
  split.
  - intros S' n. rewrite lookup_insert_Some. intros [[<- <-]|[Hne Hn]]; [lia|].
    destruct (H1 _ _ Hn) as [-> _]. rewrite Hct. rewrite bool_decide_eq_false_2 by done. lia.
  - intros S' n. rewrite lookup_insert_Some. intros [[<- <-]|[Hne Hn]]; [by apply filter_sublist|]. by destruct (H1 _ _ Hn).
  - intros x Hx. by apply HT2, HT1, Hkey.
  - intros x [Hx| ->%elem_of_list_singleton]%elem_of_app Hxi; apply HT2; [by apply HT1, HkeyA|].
    unfold T1. rewrite bool_decide_eq_false_2 by done. unfold map_upd. rewrite lookup_insert. by eexists.
Qed.

Lemma compute_traces_spec : ∃ T, so_compute_traces m inner g = Ok T ∧
  (∀ S' n, T !! S' = Some n → S' `sublist_of` inner ∧ n = ct (λ x, negb (bool_decide (x ∈ inner)) && bool_decide (trA x = S')) vs) ∧
  (∀ x, x ∈ vs → x ∉ inner → is_Some (T !! trA x)).
Proof.
  unfold so_compute_traces. rewrite (assert_sorted_ok g HL) by done. cbn [mbind res_bind].
  destruct tr_right_spec as (T0 & -> & [R1 R2 R3]). cbn [mbind res_bind].
  destruct tr_left_set_spec as (X & -> & HX). cbn [mbind res_bind].
  assert (∀ y, y ∈ X → vtx L y) as HXv.
  { intros y [Hy|(u & Hu & Hy)]%HX; [by apply Hv|]. eapply (lf_vtx g HL); [by apply Hv|done]. }
  destruct (fold_res_inv (tr_left_vertex g inner) left_inv (hash_iter 55 X) T0) as (T & HT & [L1 L2 L3 L4]).
  - split; [|done|done|set_solver]. intros S' n Hn. rewrite (R1 _ _ Hn). apply ct_ext. intros x _. unfold lcnt.
    by rewrite (bool_decide_eq_false_2 (x ∈ [])) by set_solver.
  - intros l1 y l2 T1 Hl IH. apply left_step; [done| |].
    + apply HXv. rewrite <- (elem_of_hash_iter 55), Hl. set_solver.
    + pose proof (NoDup_hash_iter 55 X) as Hnd. rewrite Hl in Hnd. apply NoDup_app in Hnd as (_ & Hd & _). intros Hy. apply (Hd y Hy). set_solver.
  - exists T. assert (∀ x, x ∈ vs → x ∉ X → trA x = tr g inner x) as Hfar.
    { intros x Hx HxX. apply trA_far; [by apply (vs_vtx L HL)|]. intros u Hu Hxu. apply HxX, HX. right. by exists u. }
    split_and!; [done| |].
    + intros S' n Hn. split; [by eapply L2|]. rewrite (L1 _ _ Hn). apply ct_ext. intros x Hx. unfold lcnt.
      destruct (bool_decide_reflect (x ∈ hash_iter 55 X)) as [HxX|HxX]; [done|]. rewrite elem_of_hash_iter in HxX. rewrite (Hfar x Hx HxX).
      rewrite (bool_decide_eq_false_2 (x ∈ inner)); [done|]. intros Hxi. apply HxX, HX. by left.
    + intros x Hx Hxi. destruct (decide (x ∈ X)) as [HxX|HxX].
      * apply L4; [by apply elem_of_hash_iter|done].
      * rewrite (Hfar x Hx HxX). by apply L3.
Qed.

(** ** Neighbour counts *)
Definition hasr (l : list N) (x : N) : bool := bool_decide (tr g l x ≠ []).
Lemma neighbour_count_spec : so_neighbour_count m inner g =
  Ok (ct (λ x, negb (bool_decide (x ∈ inner)) && bool_decide (trA x ≠ [])) vs).
Proof.
  unfold so_neighbour_count. rewrite (assert_sorted_ok g HL) by done. cbn [mbind res_bind].
  match goal with |- mbind _ (fold_res ?f ?l ?s) = _ => destruct (fold_res_inv f (λ is r, r = ct (hasr (take (length is) inner)) vs) l s) as (r & -> & Hr) end.
  - symmetry. apply ct_zero. intros x _. unfold hasr. apply bool_decide_eq_false_2. intros He. by apply He.
  - intros is i is' r His ->. destruct (prefix_seq _ _ _ _ His) as [-> Hlt].
    rewrite Nat.sub_succ, Nat.sub_0_r. apply lookup_lt_is_Some in Hlt as [a Ha]. rewrite Ha. cbn [unwrap mbind res_bind].
    destruct (inner_ctx _ _ Ha) as (c & Hc & Hok). rewrite Hc. cbn [unwrap mbind res_bind].
    rewrite (count_first_spec g HL c _ a (length is) inner Hok (right_xs a) Hs Ha). cbn [mbind res_bind].
    eexists. split; [done|]. rewrite app_length. cbn [length]. rewrite Nat.add_1_r. rewrite (take_S_r _ _ _ Ha).
    assert (a ∉ take (length is) inner) as Hna.
    { intros (j & Hj & Hlt)%elem_of_take. rewrite ss_lookup in Hs. apply (vs_before_asym g HL a a); by apply (Hs j (length is)). }
    set (l := take (length is) inner) in *.
    rewrite ct_filter. rewrite (ct_perm _ (filter (λ x, a ∈ lf x) (reverse vs)) (filter (λ x, a ∈ lf x) vs)) by (by rewrite reverse_Permutation).
    assert (∀ f ys, ct f (filter (λ x, a ∈ lf x) ys) = ct (λ x, bool_decide (a ∈ lf x) && f x) ys) as ->.
    { intros f ys. induction ys as [|y ys IH]; [done|]. cbn [ct]. case_bool_decide.
      - rewrite filter_cons_True by done. cbn. by rewrite IH.
      - rewrite filter_cons_False by done. cbn. by rewrite IH. }
    symmetry. apply ct_add. intros x _. unfold hasr. change (filter (λ w, w ∈ lf x) (l ++ [a])) with (tr g (l ++ [a]) x).
    destruct (decide (a ∈ lf x)) as [Hax|Hax].
    + rewrite (tr_snoc_in g l a x Hax). rewrite (bool_decide_eq_true_2 (a ∈ lf x)) by done.
      rewrite (bool_decide_eq_true_2 (tr g l x ++ [a] ≠ [])) by (by destruct (tr g l x)).
      destruct (tr g l x) as [|b k]; [by rewrite (bool_decide_eq_true_2 ([] ++ [a] = [a]))|].
      rewrite (bool_decide_eq_true_2 (b :: k ≠ [])) by done. rewrite (bool_decide_eq_false_2 ((b :: k) ++ [a] = [a])); [done|].
      intros He. injection He as _ He. by destruct k.
    + rewrite (tr_snoc_out g l a x Hax). rewrite (bool_decide_eq_false_2 (a ∈ lf x)) by done. cbn. lia.
  - cbn [mbind res_bind]. rewrite seq_length, firstn_all in Hr. subst r.
    destruct tr_left_set_spec as (X & -> & HX). cbn [mbind res_bind].
    set (nb := λ x, negb (bool_decide (x ∈ inner)) && bool_decide (trA x ≠ [])).
    destruct (fold_res_inv (nc_left_vertex g inner) (λ P r, r = ct (λ x, if bool_decide (x ∈ P) then nb x else hasr inner x) vs)
      (hash_iter 56 X) (ct (hasr inner) vs)) as (r & -> & ->).
    + apply ct_ext. intros x _. by rewrite (bool_decide_eq_false_2 (x ∈ [])) by set_solver.
    + intros P y P' r HP ->. assert (y ∈ X) as HyX by (rewrite <- (elem_of_hash_iter 56), HP; set_solver).
      assert (y ∉ P) as HyP. { pose proof (NoDup_hash_iter 56 X) as Hnd. rewrite HP in Hnd. apply NoDup_app in Hnd as (_ & Hd & _). intros Hy. apply (Hd y Hy). set_solver. }
      assert (vtx L y) as Hy. { apply HX in HyX as [?|(u & Hu & ?)]; [by apply Hv|]. eapply (lf_vtx g HL); [by apply Hv|done]. }
      pose proof (ct_change (λ x, if bool_decide (x ∈ P) then nb x else hasr inner x) (λ x, if bool_decide (x ∈ P ++ [y]) then nb x else hasr inner x) vs y
        (vs_nodup L HL) (proj2 (vs_vtx L HL y) Hy)) as Hc. cbn beta in Hc.
      rewrite (bool_decide_eq_false_2 (y ∈ P)) in Hc by done. rewrite (bool_decide_eq_true_2 (y ∈ P ++ [y])) in Hc by set_solver.
      assert (∀ x, x ∈ vs → x ≠ y → (if bool_decide (x ∈ P) then nb x else hasr inner x) = (if bool_decide (x ∈ P ++ [y]) then nb x else hasr inner x)) as Hoff.
      { intros x _ Hne. rewrite (bool_decide_ext (x ∈ P ++ [y]) (x ∈ P)); [done|set_solver]. }
      specialize (Hc Hoff). clear Hoff.
      unfold nc_left_vertex. rewrite (lf_ok g HL y Hy). cbn [mbind res_bind].
      assert (existsb (λ w, bool_decide (w ∈ inner)) (lf y) = hasr inner y) as ->.
      { apply existsb_ct_bool. rewrite existsb_exists. setoid_rewrite <- elem_of_list_In. setoid_rewrite bool_decide_eq_true. unfold tr. split.
        - intros (w & Hw & Hwi) He. assert (w ∈ filter (λ w, w ∈ lf y) inner) as Hin by (by apply elem_of_list_filter). rewrite He in Hin. set_solver.
        - intros Hne. destruct (filter (λ w, w ∈ lf y) inner) as [|w l] eqn:E; [done|]. exists w.
          assert (w ∈ filter (λ w, w ∈ lf y) inner) as Hin by (rewrite E; set_solver). by apply elem_of_list_filter in Hin. }
      assert (hasr inner y = true → trA y ≠ []) as Hrt.
      { unfold hasr. rewrite bool_decide_eq_true. intros Hne He. destruct (tr g inner y) as [|w l] eqn:E; [done|].
        assert (w ∈ tr g inner y) as Hin by (rewrite E; set_solver). apply elem_of_list_filter in Hin as [Hw Hwi].
        apply (elem_of_lf g HL y w Hy) in Hw as [Ha _]. apply (wf_adj_sym L HW) in Ha.
        assert (w ∈ trA y) as HwA by (by apply elem_of_list_filter). rewrite He in HwA. set_solver. }
      assert (y ∉ inner → trA y ≠ []) as Hlt.
      { intros Hyi He. apply HX in HyX as [?|(u & Hu & Hyu)]; [done|]. apply (elem_of_lf g HL u y (Hv u Hu)) in Hyu as [Ha _].
        assert (u ∈ trA y) as HuA by (by apply elem_of_list_filter). rewrite He in HuA. set_solver. }
      assert (nb y = negb (bool_decide (y ∈ inner)) && bool_decide (trA y ≠ [])) as Enb by done. rewrite Enb in Hc.
      destruct (hasr inner y) eqn:Eh.
      * destruct (bool_decide_reflect (y ∈ inner)) as [Hyi|Hyi]; cbn [negb andb] in Hc.
        -- unfold sub_checked. rewrite (proj2 (Nat.leb_le 1 _)) by lia. eexists. split; [done|]. lia.
        -- rewrite (bool_decide_eq_true_2 (trA y ≠ [])) in Hc by auto. eexists. split; [done|]. lia.
      * destruct (bool_decide_reflect (y ∈ inner)) as [Hyi|Hyi]; cbn [negb andb] in Hc.
        -- eexists. split; [done|]. lia.
        -- rewrite (bool_decide_eq_true_2 (trA y ≠ [])) in Hc by auto. eexists. split; [done|]. lia.
    + f_equal. apply ct_ext. intros x Hx. destruct (bool_decide_reflect (x ∈ hash_iter 56 X)) as [HxX|HxX]; [done|]. rewrite elem_of_hash_iter in HxX. unfold nb.
      rewrite (bool_decide_eq_false_2 (x ∈ inner)) by (intros ?; apply HxX, HX; by left). cbn [negb andb]. unfold hasr.
      rewrite (trA_far x); [done|by apply (vs_vtx L HL)|]. intros u Hu Hxu. apply HxX, HX. right. by exists u.
Qed.
End with_iter.

(** ** Sublists *)
Section subs.
Context {A : Type}.
Fixpoint subs (l : list A) : list (list A) :=
  match l with [] => [[]] | x :: l => subs l ++ (cons x <$> subs l) end.
Lemma subs_length l : length (subs l) = 2 ^ length l.
Proof. induction l as [|x l IH]; [done|]. cbn [subs length]. rewrite app_length, fmap_length, IH. cbn. lia. Qed.
Lemma elem_of_subs k l : k ∈ subs l ↔ k `sublist_of` l.
Proof.
  revert k. induction l as [|x l IH]; intros k; cbn [subs].
  - rewrite elem_of_list_singleton, sublist_nil_r. done.
  - rewrite elem_of_app, elem_of_list_fmap, IH, sublist_cons_r. setoid_rewrite IH. naive_solver.
Qed.
Lemma subs_nodup l : NoDup l → NoDup (subs l).
Proof.
  induction 1 as [|x l Hx Hl IH]; cbn [subs]; [apply NoDup_singleton|]. apply NoDup_app. split_and!; [done| |].
  - intros k Hk%elem_of_subs (k' & -> & _)%elem_of_list_fmap. apply Hx. eapply elem_of_submseteq; [|by apply sublist_submseteq]. set_solver.
  - apply NoDup_fmap_2; [|done]. by intros ? ? [= ->].
Qed.
End subs.
