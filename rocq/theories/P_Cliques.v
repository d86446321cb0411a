(** Proofs about count_max_cliques and colour_greedy. *)
From Verif Require Import Base Spec M_Graph M_Iterators M_OrdGraph M_Linear S_Graph S_Linear S_Cliques
  P_Graph P_OrdGraph P_OrdGraph2 P_DegenGraph P_Linear.

Lemma fold_res_ok_inv {A S} (f : S → A → res S) (I : list A → S → Prop) l s s' :
  fold_res f l s = Ok s' → I [] s →
  (∀ l1 x l2 s s1, l = l1 ++ x :: l2 → I l1 s → f s x = Ok s1 → I (l1 ++ [x]) s1) → I l s'.
Proof.
  intros Hf H0 Hstep.
  enough (∀ l2 l1 s, l = l1 ++ l2 → I l1 s → fold_res f l2 s = Ok s' → I l s') as HH by (by eapply (HH l [])).
  clear Hf H0 s. induction l2 as [|x l2 IH]; intros l1 s -> HI; cbn [fold_res].
  - intros [= ->]. by rewrite app_nil_r.
  - intros (s1 & Hs1 & Hf)%bind_ok. apply (IH (l1 ++ [x]) s1); [by rewrite <- (assoc_L (++))|by eapply Hstep|done].
Qed.

(** ** The clique search never runs out of fuel and never panics *)
Lemma bk_pivot_some vs (maybe exclude : gset N) : maybe ∪ exclude ⊆ list_to_set vs → maybe ∪ exclude ≠ ∅ →
  ∃ iu u, bk_pivot vs maybe exclude = Some (iu, u) ∧ vs !! iu = Some u.
Proof.
  intros Hsub Hne. apply set_choose_L in Hne as [x Hx]. unfold bk_pivot.
  destruct (last _) as [[iu u]|] eqn:E.
  - exists iu, u. split; [done|]. apply last_Some_elem_of in E.
    apply elem_of_list_filter, proj2 in E. apply elem_of_list_lookup in E as [k Hk].
    rewrite list_lookup_imap in Hk. destruct (vs !! k) eqn:Ek; [|done]. cbn in Hk. simplify_eq. done.
  - exfalso. apply last_None in E. assert (x ∈ vs) as Hxv by set_solver.
    apply elem_of_list_lookup in Hxv as [k Hk].
    assert ((k, x) ∈ filter (λ p : nat * N, p.2 ∈ maybe ∨ p.2 ∈ exclude) (imap pair vs)) as Hin.
    { apply elem_of_list_filter. split; [cbn; set_solver|]. apply elem_of_list_lookup. exists k.
      by rewrite list_lookup_imap, Hk. }
    rewrite E in Hin. set_solver.
Qed.

Lemma bk_total L v : ∀ fuel vs include maybe exclude results, length vs < fuel →
  maybe ∪ exclude ⊆ list_to_set vs → ∃ r, bk_pivot_count fuel L v vs include maybe exclude results = Ok r.
Proof.
  induction fuel as [|fuel IH]; intros vs include maybe exclude results Hlen Hsub; [lia|]. cbn [bk_pivot_count].
  destruct (bool_decide (maybe = ∅) && bool_decide (exclude = ∅)) eqn:E; [eauto|].
  destruct (bk_pivot_some vs maybe exclude) as (iu & u & -> & Hiu); [done| |].
  { intros He. apply andb_false_iff in E as [E|E]; apply bool_decide_eq_false in E; set_solver. }
  cbn [unwrap mbind res_bind]. set (left := filter _ _). set (ls := list_to_set left : gset N).
  assert (length left < length vs) as Hll.
  { apply lookup_lt_Some in Hiu. eapply Nat.le_lt_trans; [apply filter_length|]. rewrite take_length. lia. }
  match goal with |- ∃ r, (fold_res ?f ?l ?s ≫= _) = _ =>
    destruct (fold_res_inv' f (λ _, True) l s) as (st & -> & _) end.
  - done.
  - intros w [[[inc mb] ex] rs] Hw _. destruct (_ || _); [eauto|].
    destruct (IH left ({[w]} ∪ inc) (mb ∩ ls) (ex ∩ ls) rs) as [r ->]; [lia|set_solver|]. cbn [mbind res_bind]. eauto.
  - cbn [mbind res_bind]. eauto.
Qed.

Section with_wf.
Context (L : lgraph) (HL : lgraph_wf L).
Let HW := lwf_graph L HL.

Lemma count_total : ∃ n, count_max_cliques L = Ok n.
Proof.
  unfold count_max_cliques.
  match goal with |- ∃ r, (fold_res ?f ?l ?s ≫= _) = _ =>
    destruct (fold_res_inv' f (λ _, True) l s) as (st & -> & _) end.
  - done.
  - intros v rs Hv _. destruct (lwf_left L HL v) as (ns & -> & _); [by apply (vs_vtx L HL)|]. cbn [mbind res_bind].
    destruct (bk_total L v (S (length ns)) ns {[v]} (list_to_set ns) ∅ rs) as [r ->]; [lia|set_solver|eauto].
  - cbn [mbind res_bind]. eauto.
Qed.

(** ** The count is right if left neighbourhoods are cliques or independent *)
Lemma bk_pivot_snoc vs u (maybe exclude : gset N) : u ∈ maybe →
  bk_pivot (vs ++ [u]) maybe exclude = Some (length vs, u).
Proof.
  intros Hu. unfold bk_pivot. rewrite imap_app, filter_app. cbn [imap].
  rewrite filter_cons_True by (by left). cbn. rewrite last_snoc. by rewrite Nat.add_0_r.
Qed.

Lemma bk_clique v : ∀ vs fuel include results, length vs < fuel → NoDup vs →
  (∀ x y, x ∈ vs → y ∈ vs → x ≠ y → adj L x y) →
  bk_pivot_count fuel L v vs include (list_to_set vs) ∅ results = Ok (bk_report v (include ∪ list_to_set vs) results).
Proof.
  induction vs as [|u vs IH] using rev_ind; intros fuel include results Hlen Hnd Hcl.
  { destruct fuel; [lia|]. cbn. f_equal. f_equal. set_solver. }
  destruct fuel as [|fuel]; [lia|]. rewrite app_length in Hlen. cbn in Hlen.
  cbn [bk_pivot_count]. rewrite bool_decide_false by set_solver. cbn [andb].
  rewrite bk_pivot_snoc by set_solver. cbn [unwrap mbind res_bind].
  apply NoDup_app in Hnd as (Hnd & Hu & _).
  rewrite take_app. match goal with |- context [@filter ?a ?b ?c ?P ?D vs] => assert (@filter a b c P D vs = vs) as -> end.
  { clear -Hcl Hu. assert (∀ x, x ∈ vs → adj L u x) as Ha.
    { intros x Hx. apply Hcl; [set_solver|set_solver|]. intros ->. by apply (Hu x Hx), elem_of_list_singleton. }
    clear Hcl Hu. induction vs as [|x vs IH]; [done|]. rewrite filter_cons_True by (apply Ha; set_solver).
    f_equal. apply IH. set_solver. }
  rewrite (take_ge (vs ++ [u]) (S (length vs))) by (rewrite app_length; cbn; lia).
  rewrite reverse_snoc. cbn [fold_res].
  assert (u ∉ vs) as Hu' by (intros Hin; apply (Hu u Hin); set_solver).
  rewrite (bool_decide_true (u ∈ _)) by set_solver. rewrite (bool_decide_false (u ∈ _)) by set_solver. cbn [negb orb].
  assert ((list_to_set (vs ++ [u]) ∩ list_to_set vs : gset N) = list_to_set vs) as -> by set_solver.
  assert (((∅ : gset N) ∩ list_to_set vs) = ∅) as -> by set_solver.
  rewrite (IH fuel ({[u]} ∪ include) results); [|lia|done|intros; apply Hcl; set_solver].
  cbn [mbind res_bind].
  replace ({[u]} ∪ include ∪ list_to_set vs) with (include ∪ list_to_set (vs ++ [u])) by set_solver.
  match goal with |- (fold_res ?f ?l ?s ≫= _) = _ => assert (fold_res f l s = Ok s) as -> end; [|done].
  assert (∀ x, x ∈ reverse vs → x ∈ vs) as Hr by (intros x; by rewrite elem_of_reverse).
  induction (reverse vs) as [|x l IHl]; [done|]. cbn [fold_res].
  rewrite (bool_decide_true (x ∈ (list_to_set vs : gset N))) by set_solver. rewrite orb_true_r. cbn [mbind res_bind].
  apply IHl. set_solver.
Qed.

Lemma bk_independent v vs fuel include results : length vs < fuel → NoDup vs → vs ≠ [] →
  (∀ x y, x ∈ vs → y ∈ vs → ¬ adj L x y) → (∀ x, x ∈ vs → x ∉ include) →
  bk_pivot_count fuel L v vs include (list_to_set vs) ∅ results =
    Ok (foldl (λ rs w, bk_report v ({[w]} ∪ include) rs) results (reverse vs)).
Proof.
  intros Hlen Hnd Hne Hind Hinc. destruct vs as [|u vs _] using rev_ind; [done|].
  destruct fuel as [|fuel]; [lia|]. rewrite app_length in Hlen. cbn in Hlen.
  cbn [bk_pivot_count]. rewrite bool_decide_false by set_solver. cbn [andb].
  rewrite bk_pivot_snoc by set_solver. cbn [unwrap mbind res_bind].
  rewrite take_app. match goal with |- context [@filter ?a ?b ?c ?P ?D vs] => assert (@filter a b c P D vs = []) as -> end.
  { assert (∀ x, x ∈ vs → ¬ adj L u x) as Ha by (intros x Hx; apply Hind; set_solver).
    clear -Ha. induction vs as [|x vs IH]; [done|]. rewrite filter_cons_False by (apply Ha; set_solver).
    apply IH. set_solver. }
  rewrite (take_ge (vs ++ [u]) (S (length vs))) by (rewrite app_length; cbn; lia).
  change (list_to_set [] : gset N) with (∅ : gset N).
  match goal with |- (fold_res ?f _ _ ≫= _) = _ =>
    assert (∀ l rs mb ex, NoDup l → (∀ x, x ∈ l → x ∈ mb ∧ x ∉ include) → ∃ mb' ex',
      fold_res f l (include, mb, ex, rs) = Ok (include, mb', ex', foldl (λ rs w, bk_report v ({[w]} ∪ include) rs) rs l)) as HH end.
  { clear -Hlen. induction l as [|w l IH]; intros rs mb ex Hnd Hl; cbn [fold_res foldl]; [eauto|].
    apply NoDup_cons in Hnd as [Hw Hnd]. destruct (Hl w) as [Hm Hi]; [set_solver|].
    rewrite bool_decide_true by done. rewrite bool_decide_false by set_solver. cbn [negb orb].
    rewrite !intersection_empty_r_L. destruct fuel as [|fuel]; [lia|]. cbn [bk_pivot_count].
    rewrite bool_decide_true by done. cbn [andb mbind res_bind].
    replace (({[w]} ∪ include) ∖ {[w]}) with include by set_solver.
    apply IH; [done|]. intros x Hx. destruct (Hl x); [set_solver|]. split; [|done].
    rewrite elem_of_difference, elem_of_singleton. split; [done|]. intros ->. done. }
  destruct (HH (reverse (vs ++ [u])) results (list_to_set (vs ++ [u])) ∅) as (mb' & ex' & Hf).
  { by rewrite reverse_Permutation. }
  { intros x. rewrite elem_of_reverse. intros Hx. split; [set_solver|auto]. }
  rewrite Hf. done.
Qed.

Lemma bk_report_elem v w results X : v ≠ w →
  X ∈ bk_report v ({[w]} ∪ {[v]}) results ↔ X = {[v; w]} ∨ X ∈ results ∧ X ≠ {[w]}.
Proof.
  intros Hne. unfold bk_report. assert (size ({[w]} ∪ {[v]} : gset N) = 2) as ->.
  { rewrite size_union by set_solver. by rewrite !size_singleton. }
  cbn [Nat.ltb Nat.leb]. assert (({[w]} ∪ {[v]}) ∖ {[v]} = ({[w]} : gset N)) as -> by set_solver.
  rewrite elem_of_difference, elem_of_union, !elem_of_singleton.
  assert ({[w]} ∪ {[v]} = ({[v; w]} : gset N)) as -> by set_solver.
  assert (({[v; w]} : gset N) ≠ {[w]}) by set_solver. naive_solver.
Qed.
Lemma bk_reports_elem v ws results X : v ∉ ws →
  X ∈ foldl (λ rs w, bk_report v ({[w]} ∪ {[v]}) rs) results ws ↔
  (∃ w, w ∈ ws ∧ X = {[v; w]}) ∨ X ∈ results ∧ ∀ w, w ∈ ws → X ≠ {[w]}.
Proof.
  revert results. induction ws as [|w ws IH]; intros results Hv; cbn [foldl].
  { set_solver. }
  rewrite IH by set_solver. assert (v ≠ w) as Hne by set_solver. rewrite (bk_report_elem _ _ _ _ Hne).
  rewrite ex_cons. split.
  - intros [?|[[?|[? ?]] ?]]; [naive_solver|naive_solver|]. right. split; [done|]. intros y. rewrite elem_of_cons.
    intros [->|?]; auto.
  - intros [[->|?]|[? Hall]].
    + right. split; [by left|]. intros y Hy He. assert (v ∈ ({[y]} : gset N)); [|set_solver]. rewrite <- He. set_solver.
    + by left.
    + right. split; [|intros; apply Hall; set_solver]. right. split; [done|]. apply Hall. set_solver.
Qed.

Lemma diff_sing_empty (X : gset N) v x : X ∖ {[v]} = ∅ → x ∈ X → x = v.
Proof. intros He Hx. destruct (decide (x = v)); [done|]. exfalso. assert (x ∈ X ∖ {[v]}) as Hd by set_solver.
  rewrite He in Hd. set_solver. Qed.

(** Adding a vertex to an induced subgraph: the new maximal cliques. *)
Section step.
Context (P : N → Prop) (v : N) (ns : gset N) (Hv : ¬ P v) (Hns : ∀ x, x ∈ ns ↔ P x ∧ adj L v x).
Let P' x := P x ∨ x = v.

Lemma step_old X : v ∉ X → max_clique_in L P' X ↔ max_clique_in L P X ∧ ¬ X ⊆ ns.
Proof.
  intros HvX. split.
  - intros (Hne & Hsub & Hcl & Hmax). split.
    + split_and!; [done| |done|].
      * intros x Hx. destruct (Hsub x Hx) as [?| ->]; done.
      * intros y Hy. apply Hmax. by left.
    + intros Hs. destruct (Hmax v) as (x & Hx & Hna); [by right|done|]. by apply Hs, Hns, proj2 in Hx.
  - intros [(Hne & Hsub & Hcl & Hmax) Hs]. split_and!; [done|intros; left; auto|done|].
    intros y [Hy| ->] HyX; [by apply Hmax|].
    destruct (decide (set_Exists (λ x, x ∉ ns) X)) as [(x & Hx & Hxn)|Hno].
    + exists x. split; [done|]. intros Ha. apply Hxn, Hns. auto.
    + exfalso. apply Hs. intros x Hx. destruct (decide (x ∈ ns)); [done|]. exfalso. apply Hno. by exists x.
Qed.

(** Left neighbourhood a clique. *)
Lemma step_clique X : clique L ns → v ∈ X → max_clique_in L P' X ↔ X = {[v]} ∪ ns.
Proof.
  intros Hcn HvX. split.
  - intros (Hne & Hsub & Hcl & Hmax). apply set_eq. intros x. rewrite elem_of_union, elem_of_singleton. split.
    + intros Hx. destruct (Hsub x Hx) as [Hp| ->]; [|by left]. right. apply Hns. split; [done|].
      apply Hcl; [done|done|]. intros ->. done.
    + intros [->|Hx]; [done|]. destruct (decide (x ∈ X)) as [|Hn]; [done|]. exfalso.
      destruct (Hmax x) as (y & Hy & Hna); [left; by apply Hns in Hx as [? ?]|done|]. apply Hna.
      destruct (Hsub y Hy) as [Hp| ->]; [|apply (wf_adj_sym _ HW); by apply Hns in Hx as [? ?]].
      apply Hcn; [done| |by intros ->]. apply Hns. split; [done|]. apply Hcl; [done|done|]. intros ->. done.
  - intros ->. split_and!; [set_solver| | |].
    + intros x. rewrite elem_of_union, elem_of_singleton. intros [->|Hx]; [by right|left; by apply Hns in Hx as [? ?]].
    + intros x y. rewrite !elem_of_union, !elem_of_singleton. intros [->|Hx] [->|Hy] Hne; [done| | |by apply Hcn].
      * by apply Hns in Hy as [? ?].
      * apply (wf_adj_sym _ HW). by apply Hns in Hx as [? ?].
    + intros y [Hy| ->] Hyn; [|set_solver]. exists v. split; [done|]. intros Ha. apply Hyn, elem_of_union. right.
      apply Hns. split; [done|]. by apply (wf_adj_sym _ HW).
Qed.
Lemma step_clique_old X : clique L ns → max_clique_in L P X → X ⊆ ns ↔ X = ns.
Proof.
  intros Hcn (Hne & Hsub & Hcl & Hmax). split; [|by intros ->]. intros Hs. apply set_eq. intros x. split; [apply Hs|].
  intros Hx. destruct (decide (x ∈ X)) as [|Hn]; [done|]. exfalso.
  destruct (Hmax x) as (y & Hy & Hna); [by apply Hns in Hx as [? ?]|done|]. apply Hna, Hcn; [done|by apply Hs|by intros ->].
Qed.

(** Left neighbourhood independent and not empty. *)
Lemma step_indep X : ns ≠ ∅ → (∀ x y, x ∈ ns → y ∈ ns → ¬ adj L x y) → v ∈ X →
  max_clique_in L P' X ↔ ∃ w, w ∈ ns ∧ X = {[v; w]}.
Proof.
  intros Hnn Hin HvX. split.
  - intros (Hne & Hsub & Hcl & Hmax).
    assert (∀ x, x ∈ X → x = v ∨ x ∈ ns) as HX.
    { intros x Hx. destruct (decide (x = v)) as [->|Hxv]; [by left|]. right. apply Hns.
      destruct (Hsub x Hx) as [Hp| ->]; [|done]. split; [done|]. by apply Hcl. }
    destruct (decide (X ∖ {[v]} = ∅)) as [He|He].
    + exfalso. apply set_choose_L in Hnn as [w Hw]. destruct (Hmax w) as (x & Hx & Hna).
      { left. by apply Hns in Hw as [? ?]. }
      { intros Hwx. assert (w = v) as -> by (by eapply diff_sing_empty). by apply Hns in Hw as [? _]. }
      assert (x = v) as -> by (by eapply diff_sing_empty). apply Hna, (wf_adj_sym _ HW). by apply Hns in Hw as [? ?].
    + apply set_choose_L in He as [w [Hw Hwv]%elem_of_difference]. exists w.
      destruct (HX w Hw) as [->|Hwn]; [set_solver|]. split; [done|]. apply set_eq. intros x.
      rewrite elem_of_union, !elem_of_singleton. split.
      * intros Hx. destruct (HX x Hx) as [->|Hxn]; [by left|]. right. destruct (decide (x = w)); [done|].
        exfalso. apply (Hin x w Hxn Hwn). by apply Hcl.
      * intros [->| ->]; done.
  - intros (w & Hw & ->). apply Hns in Hw as Hw'. destruct Hw' as [Hpw Haw]. split_and!.
    + set_solver.
    + intros x. rewrite elem_of_union, !elem_of_singleton. intros [->| ->]; [by right|by left].
    + intros x y. rewrite !elem_of_union, !elem_of_singleton. intros [->| ->] [->| ->] ?; try done. by apply (wf_adj_sym _ HW).
    + intros y [Hy| ->] Hn; [|set_solver]. destruct (decide (y ∈ ns)) as [Hyn|Hyn].
      * exists w. split; [set_solver|]. by apply Hin.
      * exists v. split; [set_solver|]. intros Ha. apply Hyn, Hns. split; [done|]. by apply (wf_adj_sym _ HW).
Qed.
Lemma step_indep_old X : (∀ x y, x ∈ ns → y ∈ ns → ¬ adj L x y) → max_clique_in L P X →
  X ⊆ ns ↔ ∃ w, w ∈ ns ∧ X = {[w]}.
Proof.
  intros Hin (Hne & Hsub & Hcl & Hmax). split; [|intros (w & ? & ->); set_solver].
  intros Hs. apply set_choose_L in Hne as [w Hw]. exists w. split; [by apply Hs|]. apply set_eq. intros x.
  rewrite elem_of_singleton. split; [|by intros ->]. intros Hx. destruct (decide (x = w)); [done|]. exfalso.
  apply (Hin x w); [by apply Hs|by apply Hs|]. by apply Hcl.
Qed.
End step.

Lemma count_exact : (∀ v, vtx L v → left_clique L v ∨ left_independent L v) →
  ∃ K : gset (gset N), count_max_cliques L = Ok (size K) ∧ ∀ X, X ∈ K ↔ max_clique L X.
Proof.
  intros Hleft. unfold count_max_cliques.
  match goal with |- ∃ K, (fold_res ?f ?l ?s ≫= _) = _ ∧ _ =>
    destruct (fold_res_inv f (λ pre K, ∀ X, X ∈ K ↔ max_clique_in L (λ x, x ∈ pre) X) l s) as (K & -> & HK) end.
  - intros X. split; [set_solver|]. intros (Hne & Hs & _). apply set_choose_L in Hne as [x Hx]. apply Hs in Hx. set_solver.
  - intros l1 v l2 rs Hl Hrs. assert (vtx L v) as Hv by (apply (vs_vtx L HL); rewrite Hl; set_solver).
    destruct (lwf_left L HL v Hv) as (ns & Hns & Hlo). rewrite Hns. cbn [mbind res_bind].
    pose proof (vs_nodup L HL) as Hnd.
    pose proof (lists_in_order_NoDup _ _ _ Hnd Hlo) as Hnns. destruct Hlo as [Hlo _].
    assert (v ∉ l1) as Hvl.
    { rewrite Hl in Hnd. apply NoDup_app in Hnd as (_ & Hnd & _). intros Hin. apply (Hnd v Hin). set_solver. }
    assert (∀ x, x ∈ (list_to_set ns : gset N) ↔ x ∈ l1 ∧ adj L v x) as Hns'.
    { intros x. rewrite elem_of_list_to_set, Hlo, Hl. rewrite Hl in Hnd.
      assert (adj L v x → before (l1 ++ v :: l2) x v ↔ x ∈ l1) as Hb; [|tauto].
      intros _. split.
      - intros (i & j & Hi & Hj & Hij). unfold pos in *.
        assert (j = length l1) as ->.
        { eapply NoDup_lookup; [exact Hnd|exact Hj|]. by apply list_lookup_middle. }
        rewrite lookup_app_l in Hi by done. by eapply elem_of_list_lookup_2.
      - intros [i Hi]%elem_of_list_lookup. exists i, (length l1). apply lookup_lt_Some in Hi as Hlt.
        split_and!; [by apply lookup_app_l_Some|by apply list_lookup_middle|done]. }
    assert (v ∉ ns) as Hvns.
    { intros Hin. apply Hvl, (Hns' v). set_solver. }
    assert (∀ X, max_clique_in L (λ x, x ∈ l1 ++ [v]) X ↔ max_clique_in L (λ x, x ∈ l1 ∨ x = v) X) as Hext.
    { intros X. unfold max_clique_in. setoid_rewrite elem_of_app. setoid_rewrite elem_of_list_singleton. done. }
    assert (∀ x y, x ∈ ns → y ∈ ns → left_independent L v → ¬ adj L x y) as Hil.
    { intros x y [? ?]%Hlo [? ?]%Hlo Hli. by apply Hli. }
    destruct (decide (ns = [])) as [->|Hne]; [|destruct (Hleft v Hv) as [Hc|Hi]].
    + cbn. eexists. split; [done|]. intros X. rewrite Hext. unfold bk_report. rewrite size_singleton. cbn [Nat.ltb Nat.leb].
      rewrite elem_of_union, elem_of_singleton. destruct (decide (v ∈ X)) as [HvX|HvX].
      * rewrite (step_clique (λ x, x ∈ l1) v ∅ Hvl Hns' X) by done. rewrite union_empty_r_L. split; [|by left].
        intros [?|HX]; [done|]. exfalso. apply Hrs in HX as (_ & Hs & _). by apply Hvl, Hs.
      * rewrite (step_old (λ x, x ∈ l1) v ∅ Hns' X HvX), Hrs.
        split; [|by intros [? _]; right]. intros [->|HX]; [set_solver|]. split; [done|].
        destruct HX as (HXne & _). apply set_choose_L in HXne as [x Hx]. intros Hs. apply Hs in Hx. by apply elem_of_empty in Hx.
    + rewrite (bk_clique v ns (S (length ns)) {[v]} rs) ; [|lia|done|intros x y [? ?]%Hlo [? ?]%Hlo ?; by apply Hc].
      eexists. split; [done|]. intros X. rewrite Hext.
      assert (clique L (list_to_set ns)) as Hcns.
      { intros x y. rewrite !elem_of_list_to_set. intros [? ?]%Hlo [? ?]%Hlo ?. by apply Hc. }
      unfold bk_report. assert (1 < size ({[v]} ∪ list_to_set ns : gset N)) as Hsz.
      { rewrite size_union by set_solver. rewrite size_singleton, size_list_to_set by done. destruct ns; [done|cbn; lia]. }
      rewrite (proj2 (Nat.ltb_lt _ _) Hsz). assert (({[v]} ∪ list_to_set ns) ∖ {[v]} = (list_to_set ns : gset N)) as -> by set_solver.
      rewrite elem_of_difference, elem_of_union, !elem_of_singleton. destruct (decide (v ∈ X)) as [HvX|HvX].
      * rewrite (step_clique (λ x, x ∈ l1) v _ Hvl Hns' X Hcns HvX). split.
        -- intros [[?|HX] _]; [done|]. exfalso. apply Hrs in HX as (_ & Hs & _). by apply Hvl, Hs.
        -- intros ->. split; [by left|]. intros He. apply Hvns. rewrite <- (elem_of_list_to_set (C := gset N)), <- He. set_solver.
      * rewrite (step_old (λ x, x ∈ l1) v _ Hns' X HvX), Hrs. split.
        -- intros [[->|HX] Hn]; [set_solver|]. split; [done|]. rewrite (step_clique_old (λ x, x ∈ l1) v _ Hns' X); done.
        -- intros [HX Hn]. split; [by right|]. rewrite (step_clique_old (λ x, x ∈ l1) v _ Hns' X) in Hn; done.
    + rewrite (bk_independent v ns (S (length ns)) {[v]} rs); [|lia|done|done|intros; by apply Hil|set_solver].
      eexists. split; [done|]. intros X. rewrite Hext, bk_reports_elem by (by rewrite elem_of_reverse).
      setoid_rewrite elem_of_reverse.
      assert (∀ x y, x ∈ (list_to_set ns : gset N) → y ∈ (list_to_set ns : gset N) → ¬ adj L x y) as Hil'.
      { intros x y. rewrite !elem_of_list_to_set. intros ? ?. by apply Hil. }
      assert ((list_to_set ns : gset N) ≠ ∅) as Hne' by (destruct ns; [done|set_solver]).
      destruct (decide (v ∈ X)) as [HvX|HvX].
      * rewrite (step_indep (λ x, x ∈ l1) v _ Hvl Hns' X Hne' Hil' HvX). setoid_rewrite elem_of_list_to_set. split; [|by left].
        intros [?|[HX _]]; [done|]. exfalso. apply Hrs in HX as (_ & Hs & _). by apply Hvl, Hs.
      * rewrite (step_old (λ x, x ∈ l1) v _ Hns' X HvX), Hrs. split.
        -- intros [(w & _ & ->)|[HX Hn]]; [set_solver|]. split; [done|].
           rewrite (step_indep_old (λ x, x ∈ l1) v _ Hvl Hns' X Hil' HX). setoid_rewrite elem_of_list_to_set.
           intros (w & Hw & ->). by apply (Hn w).
        -- intros [HX Hn]. right. split; [done|]. intros w Hw ->. apply Hn. set_solver.
  - cbn [mbind res_bind]. exists K. split; [done|]. intros X. rewrite HK. unfold max_clique, max_clique_in.
    setoid_rewrite (vs_vtx L HL). done.
Qed.

(** ** Greedy colouring *)
Definition cg_step (st : gmap N N * list N) (v : N) : res (gmap N N * list N) :=
      let '(colours, used) := (st : gmap N N * list N) in
      ns ← left_neighbours L v;
      ncols ← mapM (λ x, unwrap (colours !! x)) ns;
      if length ncols =? length used then
        let c := N.of_nat (length used) in
        Ok (<[v := c]> colours, used ++ [c])
      else
        Ok (match head (filter (λ c, c ∉ ncols) used) with
            | Some c => <[v := c]> colours
            | None => colours
            end, used).

Definition cg_inv (pre : list N) (st : gmap N N * list N) : Prop :=
  st.2 = N.of_nat <$> seq 0 (length st.2) ∧
  (∀ u c, st.1 !! u = Some c → u ∈ pre ∧ c ∈ st.2) ∧
  proper_on_domain L st.1 ∧
  (st.2 = [] ∨ ∃ u l, vtx L u ∧ left_neighbours L u = Ok l ∧ length st.2 ≤ S (length l)).

Lemma mapM_unwrap (c : gmap N N) ns cs : mapM (λ x, unwrap (c !! x)) ns = Ok cs →
  length cs = length ns ∧ (∀ x, x ∈ ns → ∃ a, c !! x = Some a ∧ a ∈ cs) ∧ ∀ a, a ∈ cs → ∃ x, x ∈ ns ∧ c !! x = Some a.
Proof.
  revert cs. induction ns as [|x ns IH]; intros cs; cbn.
  - intros [= <-]. set_solver.
  - intros (a & Ha%unwrap_ok & (cs' & Hcs & [= <-])%bind_ok)%bind_ok. apply IH in Hcs as (Hl & H1 & H2).
    split; [cbn; lia|]. split.
    + intros y. rewrite elem_of_cons. intros [->|Hy]; [exists a; split; [done|set_solver]|].
      destruct (H1 y Hy) as (b & ? & ?). exists b. split; [done|set_solver].
    + intros b. rewrite elem_of_cons. intros [->|Hb]; [exists x; split; [set_solver|done]|].
      destruct (H2 b Hb) as (y & ? & ?). exists y. split; [set_solver|done].
Qed.

Lemma cg_step_inv l1 v l2 st st1 : vertices L = l1 ++ v :: l2 → cg_inv l1 st → cg_step st v = Ok st1 → cg_inv (l1 ++ [v]) st1.
Proof.
  intros Hl (Hused & Hdom & Hprop & Hlen) Hst. destruct st as [colours used]. cbn [fst snd] in *. unfold cg_step in Hst.
  assert (vtx L v) as Hv by (apply (vs_vtx L HL); rewrite Hl; set_solver).
  destruct (lwf_left L HL v Hv) as (ns & Hns & Hlo & _). rewrite Hns in Hst. cbn [mbind res_bind] in Hst.
  apply bind_ok in Hst as (cs & Hcs & Hst). apply mapM_unwrap in Hcs as (Hcl & Hc1 & Hc2).
  pose proof (vs_nodup L HL) as Hnd. rewrite Hl in Hnd. apply NoDup_app in Hnd as (Hnd1 & Hnd2 & _).
  assert (∀ x, x ∈ l1 → before (vertices L) x v) as Hbef.
  { intros x Hx. rewrite Hl. replace (l1 ++ v :: l2) with ((l1 ++ [v]) ++ l2) by (by rewrite <- (assoc_L (++))).
    apply before_app, before_snoc, Hx. }
  assert (∀ c, c ∉ cs → proper_on_domain L (<[v := c]> colours)) as Hpi.
  { intros c Hc.
    assert (∀ u a, adj L v u → u ≠ v → colours !! u = Some a → c ≠ a) as Hva.
    { intros u a Ha Hne Hu ->. apply Hc. destruct (Hc1 u) as (a' & ? & ?); [|by simplify_eq].
      apply Hlo. split; [done|]. apply Hbef. by eapply Hdom. }
    intros u w a b Ha Hu Hw.
    destruct (decide (u = v)) as [->|Hu'], (decide (w = v)) as [->|Hw'].
    - exfalso. by apply (lwf_loopless L HL) in Ha.
    - rewrite lookup_insert in Hu. rewrite lookup_insert_ne in Hw by done. simplify_eq. by eapply Hva.
    - rewrite lookup_insert in Hw. rewrite lookup_insert_ne in Hu by done. simplify_eq. apply not_eq_sym.
      eapply Hva; [by apply (wf_adj_sym _ HW)|done|done].
    - rewrite lookup_insert_ne in Hu, Hw by done. by eapply Hprop. }
  destruct (length cs =? length used) eqn:E.
  - apply Nat.eqb_eq in E. simplify_eq. unfold cg_inv. cbn [fst snd]. rewrite app_length. cbn [length].
    assert (N.of_nat (length used) ∉ used) as Hnew.
    { assert (∀ a, a ∈ used → (a < N.of_nat (length used))%N) as Hlt.
      { intros a Ha. rewrite Hused in Ha. apply elem_of_list_fmap in Ha as (k & -> & Hk%elem_of_seq). lia. }
      intros Hin%Hlt. lia. }
    split_and!.
    + rewrite seq_app, fmap_app, <- Hused. done.
    + intros u c. destruct (decide (u = v)) as [->|].
      * rewrite lookup_insert. intros [= <-]. set_solver.
      * rewrite lookup_insert_ne by done. intros [? ?]%Hdom. set_solver.
    + apply Hpi. intros Hin. apply Hc2 in Hin as (x & _ & Hx). by apply Hdom in Hx as [_ ?].
    + right. exists v, ns. split_and!; [done|done|lia].
  - simplify_eq. unfold cg_inv. cbn [fst snd]. destruct (head _) as [c|] eqn:Eh.
    + apply head_Some_elem_of in Eh. apply elem_of_list_filter in Eh as [Hc Hin]. split_and!; [done| |by apply Hpi|done].
      intros u c'. destruct (decide (u = v)) as [->|].
      * rewrite lookup_insert. intros [= <-]. set_solver.
      * rewrite lookup_insert_ne by done. intros [? ?]%Hdom. set_solver.
    + split_and!; [done| |done|done]. intros u c [? ?]%Hdom. set_solver.
Qed.

Lemma colour_greedy_inv c : colour_greedy L = Ok c → ∃ used, cg_inv (vertices L) (c, used).
Proof.
  intros Hc. unfold colour_greedy in Hc. apply bind_ok in Hc as ([c' used] & Hf & [= <-]). exists used.
  eapply (fold_res_ok_inv cg_step cg_inv); [exact Hf| |].
  - split_and!; [done| | |by left].
    + intros u c. cbn. by rewrite lookup_empty.
    + intros u v a b _. cbn. by rewrite lookup_empty.
  - intros l1 x l2 s s1 Hl HI Hs. by eapply cg_step_inv.
Qed.

(** Perfect elimination orders: nobody stays uncoloured. *)
Lemma colour_greedy_total : (∀ v, vtx L v → left_clique L v) →
  ∃ c, colour_greedy L = Ok c ∧ ∀ v, vtx L v → is_Some (c !! v).
Proof.
  intros Hcl. unfold colour_greedy.
  destruct (fold_res_inv cg_step (λ pre st, cg_inv pre st ∧ ∀ v, v ∈ pre → is_Some (st.1 !! v)) (vertices L) (∅, []))
    as ([c used] & Hf & _ & Hc).
  - split; [|set_solver]. split_and!; [done| | |by left].
    + intros u c. cbn. by rewrite lookup_empty.
    + intros u v a b _. cbn. by rewrite lookup_empty.
  - intros l1 v l2 [colours used] Hl [HI Hall]. cbn [fst] in Hall.
    assert (vtx L v) as Hv by (apply (vs_vtx L HL); rewrite Hl; set_solver).
    enough (∃ st', cg_step (colours, used) v = Ok st' ∧ is_Some (st'.1 !! v) ∧ ∀ u, is_Some (colours !! u) → is_Some (st'.1 !! u)) as (st' & Hst & Hsv & Hmono).
    { exists st'. split; [done|]. split; [by eapply cg_step_inv|]. intros u. rewrite elem_of_app, elem_of_list_singleton.
      intros [?| ->]; auto. }
    unfold cg_step. destruct (lwf_left L HL v Hv) as (ns & Hns & Hlo). rewrite Hns. cbn [mbind res_bind].
    pose proof (vs_nodup L HL) as Hnd. pose proof (lists_in_order_NoDup _ _ _ Hnd Hlo) as Hnns. destruct Hlo as [Hlo _].
    assert (∀ x, x ∈ ns → is_Some (colours !! x)) as Hsome.
    { intros x Hx. apply Hlo in Hx as [Ha Hb]. apply Hall. rewrite Hl in Hb, Hnd.
      destruct Hb as (i & j & Hi & Hj & Hij). unfold pos in *. assert (j = length l1) as ->.
      { eapply NoDup_lookup; [exact Hnd|exact Hj|]. by apply list_lookup_middle. }
      rewrite lookup_app_l in Hi by done. by eapply elem_of_list_lookup_2. }
    destruct HI as (Hused & Hdom & Hprop & _). cbn [fst snd] in *.
    assert (∃ cs, mapM (λ x, unwrap (colours !! x)) ns = Ok cs ∧ NoDup cs ∧ ∀ a, a ∈ cs → ∃ x, x ∈ ns ∧ colours !! x = Some a) as (cs & Hcs & Hndc & Hc2).
    { assert (∀ x y, x ∈ ns → y ∈ ns → x ≠ y → adj L x y) as Hcn by (intros x y [? ?]%Hlo [? ?]%Hlo ?; by apply (Hcl v Hv)).
      clear -Hnns Hsome Hcn Hprop. induction ns as [|x ns IH]; [exists []; split; [done|]; split; [constructor|set_solver]|].
      apply NoDup_cons in Hnns as [Hx Hnns].
      destruct IH as (cs & Hcs & Hndc & Hc2); [done|set_solver|intros; apply Hcn; set_solver|].
      destruct (Hsome x) as [a Ha]; [set_solver|]. exists (a :: cs). cbn. rewrite Ha. cbn. rewrite Hcs. cbn. split; [done|].
      split.
      - apply NoDup_cons. split; [|done]. intros Hin. apply Hc2 in Hin as (y & Hy & Hya).
        eapply (Hprop x y a a); [|done|done|done]. apply Hcn; [set_solver|set_solver|]. intros ->. done.
      - intros b. rewrite elem_of_cons. intros [->|Hb]; [exists x; set_solver|].
        destruct (Hc2 b Hb) as (y & ? & ?). exists y. set_solver. }
    rewrite Hcs. cbn [mbind res_bind]. assert (∀ a, a ∈ cs → a ∈ used) as Hsub.
    { intros a (x & _ & Hx)%Hc2. by eapply Hdom. }
    destruct (length cs =? length used) eqn:E.
    + eexists. split; [done|]. cbn [fst]. split; [rewrite lookup_insert; eauto|].
      intros u Hu. destruct (decide (u = v)) as [->|]; [rewrite lookup_insert; eauto|by rewrite lookup_insert_ne].
    + apply Nat.eqb_neq in E. eexists. split; [done|]. cbn [fst].
      destruct (head (filter (λ c, c ∉ cs) used)) as [c|] eqn:Eh.
      * split; [rewrite lookup_insert; eauto|].
        intros u Hu. destruct (decide (u = v)) as [->|]; [rewrite lookup_insert; eauto|by rewrite lookup_insert_ne].
      * exfalso. apply head_None in Eh. apply E.
        assert (NoDup used) as Hndu.
        { rewrite Hused. apply NoDup_fmap_2; [apply _|]. apply NoDup_seq. }
        apply Permutation_length, NoDup_Permutation; [done|done|]. intros a. split; [apply Hsub|]. intros Ha.
        destruct (decide (a ∈ cs)); [done|]. exfalso.
        assert (a ∈ filter (λ c, c ∉ cs) used) as Hin by (by apply elem_of_list_filter). rewrite Eh in Hin. set_solver.
  - unfold cg_step in Hf. rewrite Hf. cbn [mbind res_bind fst]. exists c. split; [done|]. intros v Hv.
    apply Hc. by apply (vs_vtx L HL).
Qed.
End with_wf.
