(** Proofs about [is_bipartite]. *)
From Verif Require Import Base Spec M_Graph M_Iterators M_EditGraph M_Algorithms S_Graph S_Multi P_Graph P_Iterators P_Degeneracy.

(** ** Walks *)
Lemma walk_cons {A} (R : A → A → Prop) x y l : walk R (x :: y :: l) ↔ R x y ∧ walk R (y :: l).
Proof. done. Qed.
Lemma walk_app {A} (R : A → A → Prop) l1 l2 :
  walk R l1 → walk R l2 →
  (∀ x y, last l1 = Some x → head l2 = Some y → R x y) → walk R (l1 ++ l2).
Proof.
  induction l1 as [|x [|y l1] IH]; intros H1 H2 Hj; [done| |].
  - destruct l2 as [|y l2]; [done|]. split; [by apply Hj|done].
  - destruct H1 as [Hxy H1]. cbn [app]. split; [done|]. apply IH; [done|done|]. intros a b Ha Hb. by apply Hj.
Qed.
Lemma walk_app_inv {A} (R : A → A → Prop) l1 l2 : walk R (l1 ++ l2) → walk R l1 ∧ walk R l2.
Proof.
  induction l1 as [|x [|y l1] IH]; [done| |].
  - destruct l2 as [|y l2]; [done|]. by intros [_ ?].
  - intros [Hxy Hw]. apply IH in Hw as [? ?]. done.
Qed.
Lemma walk_reverse {A} (R : A → A → Prop) l : (∀ x y, R x y → R y x) → walk R l → walk R (reverse l).
Proof.
  intros Hsym. induction l as [|x [|y l] IH]; [done|done|]. intros [Hxy Hw].
  rewrite reverse_cons. apply walk_app; [by apply IH|done|].
  intros a b Ha [= <-]. rewrite reverse_cons, last_snoc in Ha. injection Ha as <-. auto.
Qed.

Definition two_colourable (R : N → N → Prop) : Prop := ∃ f : N → bool, ∀ u v, R u v → f u ≠ f v.

Lemma walk_parity (R : N → N → Prop) (f : N → bool) l x y :
  (∀ u v, R u v → f u ≠ f v) → walk R l → head l = Some x → last l = Some y →
  f y = xorb (f x) (Nat.even (length l)).
Proof.
  intros Hf. revert x. induction l as [|a [|b l] IH]; intros x Hw Hx Hy; [done|injection Hx as ->..].
  - injection Hy as ->. cbn. by rewrite xorb_false_r.
  - destruct Hw as [Hab Hw]. apply Hf in Hab. specialize (IH b Hw eq_refl Hy). rewrite IH.
    change (length (x :: b :: l)) with (S (length (b :: l))). rewrite Nat.even_succ, <- Nat.negb_even.
    destruct (f x), (f b), (Nat.even (length (b :: l))); naive_solver.
Qed.
Lemma odd_closed_walk_not_2col (R : N → N → Prop) c :
  closed_walk R c → Nat.odd (length c) = true → ¬ two_colourable R.
Proof.
  intros (Hw & x & y & Hx & Hy & Hr) Hodd [f Hf].
  pose proof (walk_parity R f c x y Hf Hw Hx Hy) as Hp. apply Hf in Hr.
  rewrite <- Nat.negb_even in Hodd. destruct (Nat.even (length c)); [done|]. rewrite xorb_false_r in Hp. done.
Qed.

Section with_iter.
Context `{HI : HashIter}.
Context (G : graph) (Hwf : weak_wf G).

Notation cmap := (gmap N (bool * N)).

Inductive chain (cols : cmap) (r : N) : N → list N → Prop :=
  | chain_root : cols !! r = Some (true, r) → chain cols r r [r]
  | chain_step x c p q l : cols !! x = Some (c, p) → p ≠ x → adj G x p →
      cols !! p = Some (negb c, q) → chain cols r p l → chain cols r x (x :: l).

Lemma chain_mono cols cols' r x l : cols ⊆ cols' → chain cols r x l → chain cols' r x l.
Proof.
  intros Hs. induction 1 as [Hr|x c p q l Hx Hne Ha Hp Hc IH].
  - apply chain_root. by eapply lookup_weaken.
  - eapply chain_step; [by eapply lookup_weaken|done|done|by eapply lookup_weaken|done].
Qed.
Lemma chain_head cols r x l : chain cols r x l → ∃ t, l = x :: t.
Proof. destruct 1; eauto. Qed.
Lemma chain_last cols r x l : chain cols r x l → last l = Some r.
Proof.
  induction 1 as [Hr|x c p q l Hx Hne Ha Hp Hc IH]; [done|].
  destruct (chain_head _ _ _ _ Hc) as [t ->]. done.
Qed.
Lemma chain_walk cols r x l : chain cols r x l → walk (adj G) l.
Proof.
  induction 1 as [Hr|x c p q l Hx Hne Ha Hp Hc IH]; [done|].
  destruct (chain_head _ _ _ _ Hc) as [t ->]. done.
Qed.
Lemma chain_root_inv cols r l : cols !! r = Some (true, r) → chain cols r r l → l = [r].
Proof. intros Hr. inversion 1; [done|]. congruence. Qed.
Lemma chain_has_root cols r x l : chain cols r x l → cols !! r = Some (true, r).
Proof. by induction 1. Qed.
Lemma chain_det cols r x l l' : chain cols r x l → chain cols r x l' → l = l'.
Proof.
  intros H1. revert l'. induction H1 as [Hr|x c p q l Hx Hne Ha Hp Hc IH]; intros l' H2.
  - by rewrite (chain_root_inv _ _ _ Hr H2).
  - inversion H2 as [Hr|x' c' p' q' l1 Hx' Hne' Ha' Hp' Hc']; subst; [congruence|].
    rewrite Hx in Hx'. injection Hx' as -> ->. f_equal. by apply IH.
Qed.
Lemma chain_suffix cols r x l y : chain cols r x l → y ∈ l → ∃ l', chain cols r y l' ∧ length l' ≤ length l.
Proof.
  induction 1 as [Hr|x c p q l Hx Hne Ha Hp Hc IH].
  - intros ->%elem_of_list_singleton. exists [r]. split; [by constructor|done].
  - intros [->|Hy]%elem_of_cons.
    + exists (x :: l). split; [by eapply chain_step|done].
    + destruct (IH Hy) as (l' & ? & ?). exists l'. split; [done|]. cbn. lia.
Qed.
Lemma chain_nodup cols r x l : chain cols r x l → NoDup l.
Proof.
  induction 1 as [Hr|x c p q l Hx Hne Ha Hp Hc IH]; [apply NoDup_singleton|].
  apply NoDup_cons. split; [|done]. intros Hxl.
  destruct (chain_suffix _ _ _ _ _ Hc Hxl) as (l' & Hl' & Hlen).
  assert (chain cols r x (x :: l)) as H2 by (by eapply chain_step).
  pose proof (chain_det _ _ _ _ _ H2 Hl') as <-. cbn in Hlen. lia.
Qed.
Lemma chain_coloured cols r x l y : chain cols r x l → y ∈ l → is_Some (cols !! y).
Proof.
  induction 1 as [Hr|x c p q l Hx Hne Ha Hp Hc IH].
  - intros ->%elem_of_list_singleton. eauto.
  - intros [->|Hy]%elem_of_cons; eauto.
Qed.
Lemma chain_length cols r x l : chain cols r x l → length l ≤ size cols.
Proof.
  intros Hc. pose proof (chain_nodup _ _ _ _ Hc) as Hnd.
  rewrite <- (size_dom cols). rewrite <- (size_list_to_set (C := gset N) l) by done.
  apply subseteq_size. intros y Hy%elem_of_list_to_set. apply elem_of_dom. by eapply chain_coloured.
Qed.
Lemma chain_colour cols r x l c p : chain cols r x l → cols !! x = Some (c, p) → c = Nat.odd (length l).
Proof.
  intros H1. revert c p. induction H1 as [Hr|x c' p' q l Hx Hne Ha Hp Hc IH]; intros c p Hcx.
  - rewrite Hr in Hcx. by injection Hcx as <- <-.
  - rewrite Hx in Hcx. injection Hcx as -> ->. specialize (IH _ _ Hp).
    cbn [length]. rewrite Nat.odd_succ, <- Nat.negb_odd, <- IH. by rewrite negb_involutive.
Qed.
Lemma bip_path_spec cols r x l : chain cols r x l → ∀ fuel, length l ≤ fuel →
  bip_path cols fuel x = Ok (tail l).
Proof.
  induction 1 as [Hr|x c p q l Hx Hne Ha Hp Hc IH]; intros [|fuel] Hf; cbn in Hf; [lia| |lia|].
  - cbn. rewrite Hr. cbn. by rewrite N.eqb_refl.
  - cbn [bip_path]. rewrite Hx. cbn [unwrap mbind res_bind snd]. rewrite (proj2 (N.eqb_neq _ _)) by done.
    rewrite IH by lia. cbn. destruct (chain_head _ _ _ _ Hc) as [t ->]. done.
Qed.

(** ** The colouring loop *)
Record bip_inv (cols0 : cmap) (u0 : N) (stack : list (bool * N * N)) (cols : cmap) (unproc : gset N) : Prop := {
  bi_sub : cols0 ⊆ cols;
  bi_u0 : cols0 !! u0 = None ∧ cols !! u0 = Some (true, u0);
  bi_vtx : ∀ x, is_Some (cols !! x) → vtx G x ∧ x ∉ unproc;
  bi_cover : ∀ x, vtx G x → x ∈ unproc ∨ is_Some (cols !! x);
  bi_unproc : ∀ x, x ∈ unproc → vtx G x;
  bi_chain : ∀ x, is_Some (cols !! x) → cols0 !! x = None → ∃ l, chain cols u0 x l;
  bi_edges : ∀ x c p y, cols !! x = Some (c, p) → cols0 !! x = None → adj G x y →
     (∃ q, cols !! y = Some (negb c, q)) ∨ (negb c, y, x) ∈ stack;
  bi_stack : ∀ c y p, (c, y, p) ∈ stack → cols0 !! p = None ∧ adj G p y ∧ ∃ q, cols !! p = Some (negb c, q);
}.
(** Every neighbour of a coloured vertex has the opposite colour. *)
Definition bip_closed (cols : cmap) : Prop :=
  ∀ x c p y, cols !! x = Some (c, p) → adj G x y → ∃ q, cols !! y = Some (negb c, q).

(** Number of pushes still to come. *)
Definition unc (cols : cmap) (vs : list N) : nat :=
  foldr (λ v n, (if decide (is_Some (cols !! v)) then 0 else length (nbrs G v)) + n) 0 vs.
Lemma unc_insert cols v x vs : NoDup vs → v ∈ vs → cols !! v = None →
  unc (<[v := x]> cols) vs + length (nbrs G v) = unc cols vs.
Proof.
  intros Hnd Hv Hc. induction vs as [|w vs IH]; [set_solver|]. apply NoDup_cons in Hnd as [Hw Hnd].
  cbn [unc foldr]. destruct (decide (w = v)) as [->|Hne].
  - rewrite decide_True by (rewrite lookup_insert; eauto). rewrite decide_False by (rewrite Hc; by intros [? ?]).
    fold (unc (<[v:=x]> cols) vs). fold (unc cols vs).
    assert (unc (<[v:=x]> cols) vs = unc cols vs) as ->; [|lia].
    clear -Hw. induction vs as [|w vs IH]; [done|]. apply not_elem_of_cons in Hw as [? ?].
    cbn [unc foldr]. rewrite lookup_insert_ne by done. f_equal. by apply IH.
  - rewrite lookup_insert_ne by done. apply elem_of_cons in Hv as [?|Hv]; [done|].
    specialize (IH Hnd Hv). unfold unc in IH. lia.
Qed.

Lemma bip_loop_spec cols0 u0 : bip_closed cols0 → ∀ fuel stack cols unproc,
  bip_inv cols0 u0 stack cols unproc → length stack + unc cols (vertices G) < fuel →
  ∃ cols' unproc' o, bip_loop G fuel stack cols unproc = Ok (cols', unproc', o) ∧
    unproc' ⊆ unproc ∧
    match o with
    | None => bip_inv cols0 u0 [] cols' unproc'
    | Some (p1, v, p2) => ∃ c lv l1, cols' !! v = Some (c, p2) ∧ (∃ q, cols' !! p1 = Some (c, q)) ∧
        chain cols' u0 v lv ∧ chain cols' u0 p1 l1 ∧ adj G p1 v
    end.
Proof.
  intros Hcl. induction fuel as [|fuel IH]; intros stack cols unproc HIv Hf; [lia|].
  destruct stack as [|[[col v] parent] stack]; cbn [bip_loop].
  { exists cols, unproc, None. done. }
  destruct (bi_stack _ _ _ _ _ HIv col v parent) as (Hp0 & Hpv & qp & Hqp); [set_solver|].
  assert (vtx G v) as Hv by (apply (ww_adj_sym _ Hwf) in Hpv; by eapply (ww_adj_vtx _ Hwf)).
  assert (cols0 !! v = None) as Hv0.
  { destruct (cols0 !! v) as [[c q]|] eqn:E; [|done].
    destruct (Hcl v c q parent E) as [q' Hq']; [by apply (ww_adj_sym _ Hwf)|congruence]. }
  destruct (cols !! v) as [[curr other]|] eqn:Ev.
  - case_bool_decide as Hcc.
    + eexists cols, unproc, (Some (parent, v, other)). split; [done|]. split; [done|].
      destruct (bi_chain _ _ _ _ _ HIv v) as [lv Hlv]; [eauto|done|].
      destruct (bi_chain _ _ _ _ _ HIv parent) as [l1 Hl1]; [eauto|done|].
      exists curr, lv, l1. split_and!; try done.
      exists qp. rewrite Hqp. do 2 f_equal. destruct col, curr; naive_solver.
    + assert (curr = col) as -> by (clear -Hcc; destruct curr, col; naive_solver).
      destruct (IH stack cols (unproc ∖ {[v]})) as (cols' & unproc' & o & -> & Hsub & Ho); [|cbn in Hf; lia|].
      * destruct HIv. split; try done.
        -- intros x Hx. destruct (bi_vtx0 x Hx). set_solver.
        -- intros x Hx. destruct (bi_cover0 x Hx); [|by right].
           destruct (decide (x = v)) as [->|]; [right; eauto|left; set_solver].
        -- intros x Hx. apply bi_unproc0. set_solver.
        -- intros x c p y Hx Hx0 Hxy. destruct (bi_edges0 x c p y Hx Hx0 Hxy) as [?|[?|?]%elem_of_cons]; [by left| |by right].
           left. simplify_eq. eauto.
        -- intros c y p Hin. apply bi_stack0. set_solver.
      * exists cols', unproc', o. split; [done|]. split; [set_solver|done].
  - destruct (nbrs_weak G v Hwf Hv) as (-> & Hn). cbn [mbind res_bind].
    destruct (IH (reverse ((λ u, (negb col, u, v)) <$> nbrs G v) ++ stack)
        (<[v := (col, parent)]> cols) (unproc ∖ {[v]})) as (cols' & unproc' & o & -> & Hsub & Ho).
    + assert (cols ⊆ <[v := (col, parent)]> cols) as Hins by (by apply insert_subseteq).
      assert (∀ x, x ≠ v → <[v := (col, parent)]> cols !! x = cols !! x) as Hne.
      { intros. by rewrite lookup_insert_ne. }
      assert (parent ≠ v) as Hpne by (intros ->; congruence).
      destruct HIv. split.
      * by etrans.
      * destruct bi_u1 as [? Hu]. split; [done|]. rewrite Hne; [done|]. intros ->. congruence.
      * intros x Hx. destruct (decide (x = v)) as [->|]; [set_solver|].
        rewrite Hne in Hx by done. destruct (bi_vtx0 x Hx). set_solver.
      * intros x Hx. destruct (decide (x = v)) as [->|]; [right; rewrite lookup_insert; eauto|].
        rewrite Hne by done. destruct (bi_cover0 x Hx); [left; set_solver|by right].
      * intros x Hx. apply bi_unproc0. set_solver.
      * intros x Hx Hx0. destruct (decide (x = v)) as [->|].
        -- destruct (bi_chain0 parent) as [l Hl]; [eauto|done|]. exists (v :: l).
           eapply chain_step; [apply lookup_insert|done|by apply (ww_adj_sym _ Hwf)|rewrite Hne by done; done|].
           by eapply chain_mono.
        -- rewrite Hne in Hx by done. destruct (bi_chain0 x Hx Hx0) as [l Hl]. exists l. by eapply chain_mono.
      * intros x c p y Hx Hx0 Hxy. destruct (decide (x = v)) as [->|Hxv].
        -- rewrite lookup_insert in Hx. injection Hx as <- <-. right. apply elem_of_app. left.
           apply elem_of_reverse, elem_of_list_fmap. exists y. split; [done|by apply Hn].
        -- rewrite Hne in Hx by done. destruct (bi_edges0 x c p y Hx Hx0 Hxy) as [[q Hq]|[He|?]%elem_of_cons].
           ++ left. exists q. rewrite Hne; [done|]. intros ->. congruence.
           ++ injection He as <- -> ->. left. exists parent. rewrite lookup_insert. done.
           ++ right. apply elem_of_app. by right.
      * intros c y p [Hin|Hin]%elem_of_app.
        -- apply elem_of_reverse, elem_of_list_fmap in Hin as (y' & [= -> -> ->] & Hy). split_and!; [done|by apply Hn|].
           exists parent. rewrite lookup_insert. by rewrite negb_involutive.
        -- destruct (bi_stack0 c y p) as (? & ? & q & Hq); [set_solver|]. split_and!; [done|done|].
           exists q. rewrite Hne; [done|]. intros ->. congruence.
    + rewrite app_length, reverse_length, fmap_length.
      pose proof (unc_insert cols v (col, parent) (vertices G) (ww_vertices_nodup _ Hwf)) as Hu.
      rewrite <- Hu in Hf by (done || by apply (ww_vertices _ Hwf)). cbn [length] in Hf. lia.
    + exists cols', unproc', o. split; [done|]. split; [set_solver|done].
Qed.

Record bip_outer_inv (cols : cmap) (unproc : gset N) : Prop := {
  bo_closed : bip_closed cols;
  bo_vtx : ∀ x, is_Some (cols !! x) → vtx G x ∧ x ∉ unproc;
  bo_cover : ∀ x, vtx G x → x ∈ unproc ∨ is_Some (cols !! x);
  bo_unproc : ∀ x, x ∈ unproc → vtx G x;
}.

Lemma unc_empty : 2 + unc ∅ (vertices G) = bip_fuel G.
Proof.
  unfold bip_fuel. f_equal. induction (vertices G) as [|v vs IH]; [done|]. cbn [foldr unc].
  rewrite decide_False by (rewrite lookup_empty; by intros [? ?]). f_equal; [|exact IH]. unfold nbrs. by destruct (neighbours G v).
Qed.
Lemma unc_anti cols vs : unc cols vs ≤ unc ∅ vs.
Proof.
  induction vs as [|v vs IH]; [done|]. cbn [unc foldr]. fold (unc cols vs). fold (unc ∅ vs).
  rewrite (decide_False (P := is_Some (∅ !! v))) by (rewrite lookup_empty; by intros [? ?]).
  case_decide; lia.
Qed.

Lemma bip_outer_spec : ∀ fuel cols unproc, bip_outer_inv cols unproc → size unproc ≤ fuel →
  ∃ cols' o, bip_outer G fuel cols unproc = Ok (cols', o) ∧
    match o with
    | None => bip_outer_inv cols' ∅
    | Some (p1, v, p2) => ∃ u0 c lv l1, cols' !! v = Some (c, p2) ∧ (∃ q, cols' !! p1 = Some (c, q)) ∧
        chain cols' u0 v lv ∧ chain cols' u0 p1 l1 ∧ adj G p1 v
    end.
Proof.
  induction fuel as [|fuel IH]; intros cols unproc HIv Hf.
  { assert (unproc = ∅) as -> by (apply leibniz_equiv, size_empty_inv; lia).
    exists cols, None. done. }
  cbn [bip_outer]. case_bool_decide as Hne; [subst; exists cols, None; done|].
  destruct (hash_iter fuel unproc) as [|u rest] eqn:Eu.
  { exfalso. apply set_choose_L in Hne as [x Hx]. rewrite <- (elem_of_hash_iter fuel), Eu in Hx. set_solver. }
  assert (u ∈ unproc) as Huin by (rewrite <- (elem_of_hash_iter fuel), Eu; set_solver).
  cbn [head unwrap mbind res_bind].
  assert (cols !! u = None) as Hcu.
  { destruct (cols !! u) eqn:E; [|done]. destruct (bo_vtx _ _ HIv u); [eauto|done]. }
  pose proof (bo_unproc _ _ HIv u Huin) as Hu.
  pose proof unc_empty as Hfu. destruct (bip_fuel G) as [|bf] eqn:Ebf; [lia|]. cbn [bip_loop].
  rewrite Hcu. destruct (nbrs_weak G u Hwf Hu) as (-> & Hn). cbn [mbind res_bind]. rewrite app_nil_r.
  assert (unproc ∖ {[u]} ∖ {[u]} = unproc ∖ {[u]}) as -> by set_solver.
  destruct (bip_loop_spec cols u (bo_closed _ _ HIv) bf (reverse ((λ u0 : N, (negb true, u0, u)) <$> nbrs G u))
     (<[u:=(true, u)]> cols) (unproc ∖ {[u]})) as (cols' & unproc' & o & -> & Hsub & Ho).
  - assert (∀ x, x ≠ u → <[u := (true, u)]> cols !! x = cols !! x) as Hne'.
    { intros. by rewrite lookup_insert_ne. }
    split.
    + by apply insert_subseteq.
    + by rewrite lookup_insert.
    + intros x Hx. destruct (decide (x = u)) as [->|]; [set_solver|].
      rewrite Hne' in Hx by done. destruct (bo_vtx _ _ HIv x Hx). set_solver.
    + intros x Hx. destruct (decide (x = u)) as [->|]; [right; rewrite lookup_insert; eauto|].
      rewrite Hne' by done. destruct (bo_cover _ _ HIv x Hx); [left; set_solver|by right].
    + intros x Hx. apply (bo_unproc _ _ HIv). set_solver.
    + intros x Hx Hx0. destruct (decide (x = u)) as [->|].
      * exists [u]. apply chain_root. apply lookup_insert.
      * rewrite Hne', Hx0 in Hx by done. by destruct Hx.
    + intros x c p y Hx Hx0 Hxy. destruct (decide (x = u)) as [->|].
      * rewrite lookup_insert in Hx. injection Hx as <- <-. right.
        apply elem_of_reverse, elem_of_list_fmap. exists y. split; [done|by apply Hn].
      * rewrite Hne' in Hx by done. congruence.
    + intros c y p Hin. apply elem_of_reverse, elem_of_list_fmap in Hin as (y' & [= -> -> ->] & Hy).
      split_and!; [done|by apply Hn|]. exists u. by rewrite lookup_insert.
  - rewrite reverse_length, fmap_length.
    pose proof (unc_insert cols u (true, u) (vertices G) (ww_vertices_nodup _ Hwf)) as Hui.
    specialize (Hui (proj2 (ww_vertices _ Hwf u) Hu) Hcu). pose proof (unc_anti cols (vertices G)). lia.
  - cbn [mbind res_bind]. destruct o as [[[p1 v] p2]|].
    + exists cols', (Some (p1, v, p2)). split; [done|]. exists u. done.
    + apply IH.
      * split.
        -- intros x c p y Hx Hxy. destruct (cols !! x) as [[c0 p0]|] eqn:E.
           ++ assert (cols' !! x = Some (c0, p0)) as Hx' by (eapply lookup_weaken; [done|apply Ho]).
              rewrite Hx' in Hx. injection Hx as -> ->.
              destruct (bo_closed _ _ HIv x c p y E Hxy) as [q Hq]. exists q. eapply lookup_weaken; [done|apply Ho].
           ++ destruct (bi_edges _ _ _ _ _ Ho x c p y Hx E Hxy) as [?|?]; [done|set_solver].
        -- apply Ho.
        -- apply Ho.
        -- apply Ho.
      * assert (size unproc' < size unproc); [|lia]. apply subset_size. set_solver.
Qed.

(** ** The odd cycle *)
Lemma bip_cycle_spec cols u0 c p1 v p2 lv l1 :
  cols !! v = Some (c, p2) → (∃ q, cols !! p1 = Some (c, q)) →
  chain cols u0 v lv → chain cols u0 p1 l1 → adj G p1 v →
  ∃ cy, bip_cycle cols p1 v p2 = Ok cy ∧ closed_walk (adj G) cy ∧ Nat.odd (length cy) = true.
Proof.
  intros Hv [q1 Hp1] Hlv Hl1 Hadj.
  pose proof (chain_has_root _ _ _ _ Hlv) as Hroot.
  pose proof (chain_colour _ _ _ _ _ _ Hlv Hv) as Hcv. pose proof (chain_colour _ _ _ _ _ _ Hl1 Hp1) as Hc1.
  assert (∃ l2, chain cols u0 p2 l2 ∧ ((v = u0 ∧ p2 = u0) ∨ (v ≠ u0 ∧ lv = v :: l2 ∧ adj G v p2))) as (l2 & Hl2 & Hcase).
  { destruct Hlv as [Hr|x c' p q l Hx Hne Ha Hp Hc].
    - rewrite Hr in Hv. injection Hv as <- <-. exists [u0]. split; [by constructor|by left].
    - rewrite Hx in Hv. injection Hv as -> ->. exists l. split; [done|]. right.
      split_and!; [|done|done]. intros ->. rewrite Hroot in Hx. congruence. }
  unfold bip_cycle.
  rewrite (bip_path_spec _ _ _ _ Hl1) by (pose proof (chain_length _ _ _ _ Hl1); lia). cbn [mbind res_bind].
  rewrite (bip_path_spec _ _ _ _ Hl2) by (pose proof (chain_length _ _ _ _ Hl2); lia). cbn [mbind res_bind].
  pose proof (chain_last _ _ _ _ Hl1) as Hla1. pose proof (chain_last _ _ _ _ Hl2) as Hla2.
  pose proof (chain_walk _ _ _ _ Hl1) as Hw1. pose proof (chain_walk _ _ _ _ Hl2) as Hw2.
  pose proof (chain_nodup _ _ _ _ Hl2) as Hnd2.
  destruct (chain_head _ _ _ _ Hl1) as [t1 ->]. destruct (chain_head _ _ _ _ Hl2) as [t2 ->]. cbn [tail].
  change (last (v :: p1 :: t1)) with (last (p1 :: t1)). rewrite Hla1, Hla2, (bool_decide_true (Some u0 = Some u0)) by done. cbn [assert_res mbind res_bind].
  assert (1 <? length (v :: p1 :: t1) = true) as -> by (apply Nat.ltb_lt; cbn; lia). cbn [andb head].
  assert (adj G v p1) as Hvp1 by (by apply (ww_adj_sym _ Hwf)).
  assert (∃ i1, p1 :: t1 = i1 ++ [u0]) as [i1 Hi1].
  { apply last_Some in Hla1 as [l' ->]. eauto. }
  destruct Hcase as [[-> ->]|(Hvu & -> & Hvp2)].
  - rewrite bool_decide_true by done. eexists; split; [done|].
    assert (removelast (u0 :: p1 :: t1) = u0 :: i1) as -> by (rewrite Hi1; apply (removelast_last (u0 :: i1))).
    rewrite (chain_root_inv _ _ _ Hroot Hlv) in Hcv. cbn in Hcv.
    assert (length (p1 :: t1) = length i1 + 1) as Hlen by (rewrite Hi1, app_length; done).
    rewrite Hlen in Hc1. split.
    + assert (walk (adj G) (u0 :: (i1 ++ [u0]))) as Hw by (rewrite <- Hi1; done).
      change (u0 :: (i1 ++ [u0])) with ((u0 :: i1) ++ [u0]) in Hw. split; [by apply walk_app_inv in Hw as [? _]|].
      exists u0. destruct (last (u0 :: i1)) as [z|] eqn:Ez; [|by apply last_None in Ez].
      exists z. split_and!; [done|done|]. apply last_Some in Ez as [l' El].
      rewrite El, <- app_assoc in Hw. apply walk_app_inv in Hw as [_ Hw]. cbn in Hw. apply Hw.
    + cbn [length]. rewrite <- Hcv, Hc1. f_equal. lia.
  - rewrite bool_decide_false by congruence.
    assert ((1 <? length (p2 :: t2)) && bool_decide (Some p2 = Some u0) = false) as ->.
    { destruct t2 as [|z t2]; [done|]. rewrite bool_decide_false; [by rewrite andb_false_r|].
      intros [= ->]. apply NoDup_cons in Hnd2 as [Hn _]. apply Hn.
      change (last (u0 :: z :: t2)) with (last (z :: t2)) in Hla2. apply last_Some in Hla2 as [l' ->]. set_solver. }
    eexists; split; [done|].
    assert (∃ i2, p2 :: t2 = i2 ++ [u0]) as [i2 Hi2].
    { apply last_Some in Hla2 as [l' ->]. eauto. }
    rewrite Hi2, removelast_last.
    assert (closed_walk (adj G) ((v :: p1 :: t1) ++ reverse i2)) as Hcw.
    { split.
      - destruct (walk_app_inv (adj G) i2 [u0]) as [Hwi _]; [by rewrite <- Hi2|].
        apply walk_app.
        + done.
        + by apply walk_reverse; [apply Hwf|].
        + change (last (v :: p1 :: t1)) with (last (p1 :: t1)). rewrite Hla1. intros x y [= <-] Hy.
          destruct (reverse i2) as [|y' r] eqn:Er; [done|]. injection Hy as ->.
          assert (i2 = reverse r ++ [y]) as Ei2. { rewrite <- (reverse_involutive i2), Er, reverse_cons. done. }
          rewrite Hi2, Ei2, <- app_assoc in Hw2. apply walk_app_inv in Hw2 as [_ Hw2]. cbn in Hw2.
          apply (ww_adj_sym _ Hwf), Hw2.
      - exists v, p2. split_and!; [done| |by apply (ww_adj_sym _ Hwf)].
        rewrite last_app. destruct i2 as [|a i2].
        + cbn in Hi2. injection Hi2 as -> ->. done.
        + cbn in Hi2. injection Hi2 as -> ->. rewrite reverse_cons, last_snoc. done. }
    split; [done|]. rewrite app_length, reverse_length.
    assert (length (p2 :: t2) = length i2 + 1) as Hlen by (rewrite Hi2, app_length; done).
    cbn [length] in *. rewrite Hcv in Hc1.
    replace (S (S (length t1)) + length i2) with (S (length t1) + S (length t2)) by lia.
    rewrite Nat.odd_add, <- Hc1. rewrite (Nat.odd_succ (S (length t2))), <- Nat.negb_odd.
    by destruct (Nat.odd (S (length t2))).
Qed.

Lemma is_bipartite_weak :
  ∃ w, is_bipartite G = Ok w ∧
  match w with
  | Bipartition L R => L ## R ∧ (∀ v, v ∈ L ∪ R ↔ vtx G v) ∧
      (∀ u v, adj G u v → (u ∈ L ∧ v ∈ R) ∨ (u ∈ R ∧ v ∈ L))
  | OddCycle c => closed_walk (adj G) c ∧ Nat.odd (length c) = true
  end.
Proof.
  unfold is_bipartite. set (unproc := collect_set (vertices G) : gset N).
  assert (∀ v, v ∈ unproc ↔ vtx G v) as Hun.
  { intros v. unfold unproc, collect_set. by rewrite elem_of_list_to_set, (ww_vertices _ Hwf). }
  destruct (bip_outer_spec (size unproc) ∅ unproc) as (cols & o & -> & Ho); [|done|].
  { split.
    - intros x c p y Hx. by rewrite lookup_empty in Hx.
    - intros x [? Hx]. by rewrite lookup_empty in Hx.
    - intros x Hx. left. by apply Hun.
    - intros x. by apply Hun. }
  cbn [mbind res_bind fst snd]. destruct o as [[[p1 v] p2]|].
  - destruct Ho as (u0 & c & lv & l1 & Hv & Hp1 & Hlv & Hl1 & Ha).
    destruct (bip_cycle_spec _ _ _ _ _ _ _ _ Hv Hp1 Hlv Hl1 Ha) as (cy & -> & Hcw & Hodd).
    cbn. exists (OddCycle cy). done.
  - eexists; split; [done|]. cbn beta iota.
    assert (∀ b v, v ∈ dom (filter (λ kv : N * (bool * N), kv.2.1 = b) cols) ↔ ∃ p, cols !! v = Some (b, p)) as Hd.
    { intros b v. rewrite elem_of_dom. split.
      - intros [[c p] Hx%map_filter_lookup_Some]. destruct Hx as [Hx Hb]. cbn in Hb. subst. eauto.
      - intros [p Hp]. exists (b, p). by apply map_filter_lookup_Some. }
    split_and!.
    + intros x. rewrite !Hd. intros [? ?] [? ?]. congruence.
    + intros x. rewrite elem_of_union, !Hd. split.
      * intros [[p Hp]|[p Hp]]; eapply (bo_vtx _ _ Ho); eauto.
      * intros Hx. destruct (bo_cover _ _ Ho x Hx) as [?|[[[] p] Hp]]; [set_solver|eauto|eauto].
    + intros x y Hxy. rewrite !Hd. assert (vtx G x) as Hx by (by eapply (ww_adj_vtx _ Hwf)).
      destruct (bo_cover _ _ Ho x Hx) as [?|[[c p] Hp]]; [set_solver|].
      destruct (bo_closed _ _ Ho x c p y Hp Hxy) as [q Hq]. destruct c; cbn in Hq; eauto.
Qed.

End with_iter.

Lemma is_bipartite_spec `{HI : HashIter} (G : graph) : graph_wf G →
  ∃ w, is_bipartite G = Ok w ∧
  match w with
  | Bipartition L R => L ## R ∧ (∀ v, v ∈ L ∪ R ↔ vtx G v) ∧
      (∀ u v, adj G u v → (u ∈ L ∧ v ∈ R) ∨ (u ∈ R ∧ v ∈ L))
  | OddCycle c => closed_walk (adj G) c ∧ Nat.odd (length c) = true
  end.
Proof. intros Hwf. by apply is_bipartite_weak, graph_wf_weak. Qed.
