(** The traces and neighbour counts computed by the trace oracle. *)
From Verif Require Import Base Spec M_Graph M_Iterators M_EditGraph M_Algorithms M_OrdGraph M_DegenGraph M_Linear M_Trace
  S_Graph S_Linear S_Reach P_EditGraph P_Graph P_Iterators P_Degeneracy P_OrdGraph P_OrdGraph2 P_DegenGraph2 P_Linear P_Linear2 P_Trace P_Trace2.

(** ** Counting *)
Section ct.
Context {A : Type}.
Fixpoint ct (P : A → bool) (l : list A) : nat :=
  match l with [] => 0 | x :: l => (if P x then 1 else 0) + ct P l end.
Lemma ct_ext (P Q : A → bool) (l : list A) : (∀ x, x ∈ l → P x = Q x) → ct P l = ct Q l.
Proof. induction l as [|x l IH]; intros Hl; [done|]. cbn. rewrite (Hl x), IH; [done|set_solver|set_solver]. Qed.
Lemma ct_add (P Q R : A → bool) (l : list A) : (∀ x, x ∈ l → (if P x then 1 else 0) = (if Q x then 1 else 0) + (if R x then 1 else 0)) → ct P l = ct Q l + ct R l.
Proof. induction l as [|x l IH]; intros Hl; [done|]. cbn. rewrite (Hl x), IH; [lia|set_solver|set_solver]. Qed.
Lemma ct_filter (P : A → Prop) `{∀ x, Decision (P x)} l : length (filter P l) = ct (λ x, bool_decide (P x)) l.
Proof. induction l as [|x l IH]; [done|]. cbn [ct]. case_bool_decide; [rewrite filter_cons_True by done; cbn; lia|by rewrite filter_cons_False]. Qed.
Lemma ct_perm P (l l' : list A) : l ≡ₚ l' → ct P l = ct P l'.
Proof. induction 1; cbn; lia. Qed.
Lemma ct_pos (P : A → bool) (l : list A) x : x ∈ l → P x = true → 0 < ct P l.
Proof. induction 1 as [|? ? ? ? IH]; intros Hp; cbn; [rewrite Hp; lia|]. apply IH in Hp. lia. Qed.
Lemma ct_zero (P : A → bool) (l : list A) : (∀ x, x ∈ l → P x = false) → ct P l = 0.
Proof. induction l as [|x l IH]; intros Hl; [done|]. cbn. rewrite (Hl x), IH by set_solver. done. Qed.
Lemma ct_change (P Q : A → bool) (l : list A) y : NoDup l → y ∈ l → (∀ x, x ∈ l → x ≠ y → P x = Q x) →
  ct P l + (if Q y then 1 else 0) = ct Q l + (if P y then 1 else 0).
Proof.
  induction 1 as [|x l Hx Hl IH]; intros Hy HPQ; [set_solver|]. cbn. apply elem_of_cons in Hy as [->|Hy].
  - rewrite (ct_ext P Q l); [lia|]. intros z Hz. apply HPQ; [set_solver|]. intros ->. done.
  - assert (ct P l + (if Q y then 1 else 0) = ct Q l + (if P y then 1 else 0)) by (apply IH; [done|intros z Hz; apply HPQ; set_solver]).
    rewrite (HPQ x); [lia|set_solver|]. intros ->. done.
Qed.
End ct.

Lemma filter_sublist {A} (P : A → Prop) `{∀ x, Decision (P x)} l : filter P l `sublist_of` l.
Proof.
  induction l as [|x l IH]; [done|]. destruct (decide (P x)).
  - rewrite filter_cons_True by done. by apply sublist_skip.
  - rewrite filter_cons_False by done. by apply sublist_cons.
Qed.

Section with_iter.
Context `{HI : HashIter}.
Context (g : degengraph) (HL : lgraph_wf (dg_lgraph g)).
Local Notation L := (dg_lgraph g).
Local Notation vs := (vertices (dg_lgraph g)).
Local Notation lf := (lf g).
Let HW := lwf_graph L HL.

Lemma assert_sorted_ok l : StronglySorted (before vs) l → (∀ x, x ∈ l → vtx L x) → assert_sorted g l = Ok ().
Proof.
  intros Hs Hl. unfold assert_sorted.
  set (ix := λ x, match dg_index_of g x with Ok i => i | _ => 0 end).
  assert (∀ x, x ∈ l → dg_index_of g x = Ok (ix x)) as Hix.
  { intros x Hx. destruct (lwf_index L HL x (Hl x Hx)) as [i Hi]. cbn in Hi. unfold ix. by rewrite Hi. }
  assert (mapM (dg_index_of g) l = Ok (ix <$> l)) as ->.
  { apply mapM_res_ok. apply Forall2_fmap_r. apply Forall_Forall2_diag. by apply Forall_forall. }
  cbn [mbind res_bind]. assert (sorted_nat (ix <$> l) = true) as ->; [|done].
  induction Hs as [|x l Hs IH Hf]; [done|]. destruct l as [|y l]; [done|]. rewrite !fmap_cons. cbn [sorted_nat].
  apply andb_true_iff. split.
  - apply Nat.leb_le. apply Forall_cons in Hf as [Hb _].
    apply (lwf_index_lt L HL x y (ix x) (ix y)) in Hb; [lia| |]; apply Hix; set_solver.
  - change (sorted_nat (ix <$> y :: l) = true). apply IH; intros z Hz; [apply Hl|apply Hix]; set_solver.
Qed.

(** The trace of the left neighbourhood of [x] on a list. *)
Definition tr (l : list N) (x : N) : list N := filter (λ w, w ∈ lf x) l.
Definition cnt (l S' : list N) : nat := ct (λ x, bool_decide (tr l x = S')) vs.
Lemma tr_sublist l x : tr l x `sublist_of` l.
Proof. apply filter_sublist. Qed.
Lemma tr_snoc_in l a x : a ∈ lf x → tr (l ++ [a]) x = tr l x ++ [a].
Proof. intros Ha. unfold tr. rewrite filter_app. by rewrite (filter_cons_True _ a []). Qed.
Lemma tr_snoc_out l a x : a ∉ lf x → tr (l ++ [a]) x = tr l x.
Proof. intros Ha. unfold tr. rewrite filter_app. rewrite (filter_cons_False _ a []) by done. by rewrite app_nil_r. Qed.
Lemma tr_notin l a x : a ∉ l → a ∉ tr l x.
Proof. intros Ha [_ ?]%elem_of_list_filter. done. Qed.

Lemma cnt_split l a S' : a ∉ l → a ∉ S' → cnt l S' = cnt (l ++ [a]) S' + cnt (l ++ [a]) (S' ++ [a]).
Proof.
  intros Hl HS. apply ct_add. intros x _. destruct (decide (a ∈ lf x)) as [Ha|Ha].
  - rewrite (tr_snoc_in l a x Ha). rewrite (bool_decide_eq_false_2 (tr l x ++ [a] = S')) by (intros He; apply HS; rewrite <- He; set_solver). cbn.
    rewrite (bool_decide_ext (tr l x ++ [a] = S' ++ [a]) (tr l x = S')); [done|]. split; [|by intros ->]. intros He. by apply app_inj_2 in He as [? _].
  - rewrite (tr_snoc_out l a x Ha). rewrite (bool_decide_eq_false_2 (tr l x = S' ++ [a])); [lia|].
    intros He. apply (tr_notin l a x Hl). rewrite He. set_solver.
Qed.

(** ** Phase one *)
Record right_inv (l : list N) (T : gmap (list N) nat) : Prop := {
  ri_val : ∀ S' n, T !! S' = Some n → n = cnt l S';
  ri_sub : ∀ S' n, T !! S' = Some n → S' `sublist_of` l;
  ri_key : ∀ x, x ∈ vs → is_Some (T !! tr l x);
}.

Lemma right_inv_nil : right_inv [] {[ [] := num_vertices (dg_graph g) ]}.
Proof.
  split.
  - intros S' n [<- <-]%lookup_singleton_Some. change (num_vertices (dg_graph g)) with (num_vertices L). rewrite (wf_num_vertices L HW).
    unfold cnt. generalize vs. intros ys. induction ys as [|x ys IH]; [done|]. cbn [length ct].
    rewrite bool_decide_eq_true_2 by done. cbn. by rewrite IH.
  - by intros S' n [<- <-]%lookup_singleton_Some.
  - intros x _. exists (num_vertices (dg_graph g)). apply lookup_singleton.
Qed.

Section step.
Context (l : list N) (a : N) (T : gmap (list N) nat) (cs : gmap (list N) nat).
Context (Hl : StronglySorted (before vs) (l ++ [a])) (Hv : ∀ x, x ∈ l ++ [a] → vtx L x).
Context (HT : right_inv l T).
Context (Hcs : tally cs (tr (l ++ [a]) <$> filter (λ x, a ∈ lf x) (reverse vs))).

Lemma step_notin : a ∉ l.
Proof.
  intros [i Hi]%elem_of_list_lookup. rewrite ss_lookup in Hl.
  assert (before vs a a) as Hb.
  { apply (Hl i (length l)); [|by apply list_lookup_middle|by eapply lookup_lt_Some]. rewrite lookup_app_l; [done|by eapply lookup_lt_Some]. }
  by apply (vs_before_asym g HL a a Hb).
Qed.
Lemma cs_val S' n : cs !! S' = Some n → n = cnt (l ++ [a]) S' ∧ ∃ x, x ∈ vs ∧ a ∈ lf x ∧ S' = tr l x ++ [a].
Proof.
  intros Hn. pose proof step_notin as Ha.
  assert (is_Some (cs !! S')) as Hs by (by eexists). apply (tally_elem _ _ _ Hcs) in Hs as Hin.
  apply elem_of_list_fmap in Hin as (x & -> & [Hax Hx]%elem_of_list_filter). rewrite elem_of_reverse in Hx.
  split; [|exists x; split_and!; [done|done|by apply tr_snoc_in]].
  pose proof (tally_lookup _ _ _ _ Hcs Hn) as ->. rewrite ct_filter. unfold cnt. rewrite <- (ct_perm _ (reverse vs) vs) by apply reverse_Permutation.
  clear -Hax Ha. induction (reverse vs) as [|y ys IH]; [done|]. destruct (decide (a ∈ lf y)) as [Hy|Hy].
  - rewrite filter_cons_True by done. rewrite fmap_cons. cbn [ct]. by rewrite IH.
  - rewrite filter_cons_False by done. cbn [ct]. rewrite IH. rewrite bool_decide_eq_false_2; [done|].
    rewrite (tr_snoc_out l a y Hy), (tr_snoc_in l a x Hax). intros He. apply (tr_notin l a y Ha). rewrite He. set_solver.
Qed.
Lemma cs_key x : x ∈ vs → a ∈ lf x → is_Some (cs !! tr (l ++ [a]) x).
Proof. intros Hx Ha. apply (tally_elem _ _ _ Hcs). apply elem_of_list_fmap. exists x. split; [done|]. apply elem_of_list_filter. by rewrite elem_of_reverse. Qed.

Lemma step_spec t : ∃ T', fold_res (tr_right_set g) (map_iter t cs) T = Ok T' ∧ right_inv (l ++ [a]) T'.
Proof.
  pose proof step_notin as Ha. destruct HT as [Hval Hsub Hkey].
  assert (∀ S' n, T !! S' = Some n → a ∉ S') as HTa.
  { intros S' n Hn Hin. apply Ha. eapply elem_of_submseteq; [exact Hin|]. apply sublist_submseteq. by eapply Hsub. }
  destruct (fold_res_inv (tr_right_set g) (λ es T',
    (∀ S' n, T' !! S' = Some n →
      (S' ∈ es.*1 ∧ n = cnt (l ++ [a]) S') ∨
      (is_Some (T !! S') ∧ ((S' ++ [a] ∈ es.*1 ∧ n = cnt (l ++ [a]) S') ∨ (S' ++ [a] ∉ es.*1 ∧ n = cnt l S')))) ∧
    (∀ S', is_Some (T !! S') ∨ S' ∈ es.*1 → is_Some (T' !! S'))) (map_iter t cs) T) as (T' & -> & H1 & H2).
  - split; [|intros S' [?|?]; [done|set_solver]]. intros S' n Hn. right. split; [by eexists|]. right. split; [set_solver|]. by apply Hval.
  - intros es1 [S0 n0] es2 T1 Hes [IH1 IH2].
    assert (cs !! S0 = Some n0) as Hc. { apply (elem_of_map_iter t). rewrite Hes. set_solver. }
    destruct (cs_val S0 n0 Hc) as [-> (x & Hx & Hax & ->)].
    assert (tr l x ++ [a] ∉ es1.*1) as Hnew.
    { pose proof (NoDup_map_iter_fst t cs) as Hnd. rewrite Hes, fmap_app, fmap_cons in Hnd. cbn in Hnd.
      apply NoDup_app in Hnd as (_ & Hd & _). intros Hin. apply (Hd _ Hin). set_solver. }
    assert (∀ S' n, (S', n) ∈ es1 → ∃ S'', S' = S'' ++ [a]) as Hes1.
    { intros S' n Hp. assert (cs !! S' = Some n) as Hc'. { apply (elem_of_map_iter t). rewrite Hes. set_solver. }
      destruct (cs_val S' n Hc') as [_ (y & _ & _ & ->)]. by eexists. }
    assert (∀ S', S' ∈ es1.*1 → a ∈ S') as Hes1a.
    { intros S' ([S1 n1] & -> & Hp)%elem_of_list_fmap. destruct (Hes1 _ _ Hp) as [S'' ->]. set_solver. }
    assert (T1 !! (tr l x ++ [a]) = None) as Hnone.
    { destruct (T1 !! (tr l x ++ [a])) as [n|] eqn:E; [|done]. exfalso. destruct (IH1 _ _ E) as [[? _]|[[m Hm] _]]; [done|].
      apply (HTa _ _ Hm). set_solver. }
    assert (T1 !! tr l x = Some (cnt l (tr l x))) as Hpre.
    { destruct (IH2 (tr l x)) as [n Hn]; [left; by apply Hkey|]. rewrite Hn. f_equal.
      destruct (IH1 _ _ Hn) as [[Hin _]|[_ [[Hin _]|[_ ->]]]]; [|done|done]. exfalso. by apply (tr_notin l a x Ha), Hes1a. }
    pose proof (cnt_split l a (tr l x) Ha (tr_notin l a x Ha)) as Hsplit.
    unfold tr_right_set. rewrite bool_decide_eq_false_2 by (by destruct (tr l x)).
    rewrite assert_sorted_ok; cycle 1.
    { rewrite <- (tr_snoc_in l a x) by done. by apply ss_filter. }
    { intros w Hw. apply Hv. rewrite <- (tr_snoc_in l a x) in Hw by done. by apply elem_of_list_filter in Hw as [_ ?]. }
    cbn [mbind res_bind]. unfold map_upd. rewrite Hnone. cbn [default id].
    rewrite app_length. cbn [length]. rewrite Nat.add_sub, take_app. 
    rewrite lookup_insert_ne by (intros He; apply (f_equal length) in He; rewrite app_length in He; cbn in He; lia).
    rewrite Hpre. cbn [unwrap mbind res_bind]. unfold sub_checked.
    rewrite (proj2 (Nat.leb_le _ _)) by lia. cbn [mbind res_bind]. eexists. split; [done|].
    rewrite fmap_app. cbn [fmap list_fmap fst]. split.
    + intros S' n. rewrite lookup_insert_Some. intros [[<- <-]|[Hne Hn]].
      { right. split; [by apply Hkey|]. left. split; [set_solver|]. lia. }
      rewrite lookup_insert_Some in Hn. destruct Hn as [[<- <-]|[Hne' Hn]].
      { left. split; [set_solver|]. lia. }
      destruct (IH1 _ _ Hn) as [[Hin ->]|[Hs [[Hin ->]|[Hin ->]]]]; [left; set_solver|right; split; [done|]; left; set_solver|].
      right. split; [done|]. right. split; [|done]. rewrite elem_of_app, elem_of_list_singleton. intros [?|He]; [done|].
      apply app_inj_2 in He as [? _]; done.
    + intros S' HS. destruct (decide (S' = tr l x)) as [->|Hne]; [rewrite lookup_insert; by eexists|].
      rewrite lookup_insert_ne by done. destruct (decide (S' = tr l x ++ [a])) as [->|Hne']; [rewrite lookup_insert; by eexists|].
      rewrite lookup_insert_ne by done. apply IH2. set_solver.
  - exists T'. split; [done|].
    assert (∀ S', S' ∈ (map_iter t cs).*1 ↔ is_Some (cs !! S')) as Hdom.
    { intros S'. rewrite elem_of_list_fmap. split.
      - intros ([S1 n1] & -> & Hp). apply elem_of_map_iter in Hp. by eexists.
      - intros [n Hn]. exists (S', n). split; [done|]. by apply elem_of_map_iter. }
    split.
    + intros S' n Hn. destruct (H1 _ _ Hn) as [[_ ->]|[[m Hm] [[_ ->]|[Hin ->]]]]; [done|done|].
      rewrite (cnt_split l a S' Ha (HTa _ _ Hm)). assert (cnt (l ++ [a]) (S' ++ [a]) = 0) as ->; [|lia].
      apply ct_zero. intros x Hx. apply bool_decide_eq_false_2. intros He. apply Hin, Hdom. rewrite <- He.
      apply cs_key; [done|]. destruct (decide (a ∈ lf x)) as [|Hna]; [done|]. exfalso.
      rewrite (tr_snoc_out l a x Hna) in He. apply (tr_notin l a x Ha). rewrite He. set_solver.
    + intros S' n Hn. destruct (H1 _ _ Hn) as [[Hin _]|[[m Hm] _]].
      * apply Hdom in Hin as [m Hm]. destruct (cs_val _ _ Hm) as [_ (x & _ & Hax & ->)]. rewrite <- (tr_snoc_in l a x Hax). apply tr_sublist.
      * apply Hsub in Hm. by apply sublist_inserts_r.
    + intros x Hx. apply H2. destruct (decide (a ∈ lf x)) as [Hax|Hax].
      * right. apply Hdom. by apply cs_key.
      * left. rewrite tr_snoc_out by done. by apply Hkey.
Qed.
End step.
End with_iter.
