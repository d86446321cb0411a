(** Maximal cliques of complete multipartite and of triangle-free graphs, counted; no code is modelled here. *)
From Verif Require Import Base Spec M_Graph M_Iterators M_OrdGraph M_Linear S_Graph S_Linear S_Cliques
  P_Linear P_Cliques P_Cliques2 P_Generators T_Linear T_Cliques.

(** All ways to choose one item from each list. *)
Fixpoint tv (ps : list (list N)) : list (list N) :=
  match ps with [] => [[]] | p :: ps => p ≫= (λ x, (x ::.) <$> tv ps) end.
Definition prod_nat (l : list nat) : nat := foldr Nat.mul 1 l.

Lemma bind_length_const {A B} (f : A → list B) c l : (∀ x, length (f x) = c) → length (l ≫= f) = length l * c.
Proof. intros Hf. induction l as [|x l IH]; [done|]. cbn. rewrite app_length, Hf. fold (mbind f l). rewrite IH. lia. Qed.
Lemma tv_length ps : length (tv ps) = prod_nat (length <$> ps).
Proof.
  induction ps as [|p ps IH]; [done|]. cbn [tv]. rewrite (bind_length_const _ (length (tv ps))) by (intros x; by rewrite fmap_length). rewrite IH. done.
Qed.
Lemma elem_of_tv t ps : t ∈ tv ps ↔ Forall2 (λ x p, x ∈ p) t ps.
Proof.
  revert t. induction ps as [|p ps IH]; intros t; cbn [tv].
  - rewrite elem_of_list_singleton. split; [intros ->; constructor|]. by inversion_clear 1.
  - rewrite elem_of_list_bind. setoid_rewrite elem_of_list_fmap. setoid_rewrite IH. split.
    + intros (x & (t' & -> & Ht) & Hx). by constructor.
    + inversion_clear 1. eauto.
Qed.
Lemma tv_nodup ps : (∀ p, p ∈ ps → NoDup p) → NoDup (tv ps).
Proof.
  induction ps as [|p ps IH]; intros Hp; [apply NoDup_singleton|]. cbn [tv].
  assert (NoDup (tv ps)) as Hnd by (apply IH; intros q Hq; apply Hp; by right).
  assert (NoDup p) as Hndp by (apply Hp; left). clear Hp IH. induction p as [|x p IH]; [constructor|].
  apply NoDup_cons in Hndp as [Hx Hndp]. cbn. apply NoDup_app. split_and!; [by apply NoDup_fmap_2; [intros a b [=]|]| |by apply IH].
  intros t (t' & -> & _)%elem_of_list_fmap. intros (y & (t'' & Heq & _)%elem_of_list_fmap & Hy)%elem_of_list_bind. by simplify_eq.
Qed.

(** The parts do not overlap. *)
Definition parts_disj (ps : list (list N)) : Prop := ∀ i j p q x, ps !! i = Some p → ps !! j = Some q → x ∈ p → x ∈ q → i = j.
Lemma parts_disj_cons p ps : parts_disj (p :: ps) → parts_disj ps ∧ ∀ q x, q ∈ ps → x ∈ p → x ∉ q.
Proof.
  intros Hd. split.
  - intros i j p' q' x Hi Hj Hp Hq. specialize (Hd (S i) (S j) p' q' x Hi Hj Hp Hq). lia.
  - intros q x [j Hj]%elem_of_list_lookup Hp Hq. specialize (Hd 0 (S j) p q x eq_refl Hj Hp Hq). lia.
Qed.
Lemma tv_elem t ps x : t ∈ tv ps → x ∈ t → ∃ p, p ∈ ps ∧ x ∈ p.
Proof.
  rewrite elem_of_tv. intros Ht [i Hi]%elem_of_list_lookup. destruct (Forall2_lookup_l _ _ _ _ _ Ht Hi) as (p & Hp & Hx).
  exists p. split; [by eapply elem_of_list_lookup_2|done].
Qed.
Lemma tv_inj ps t t' : parts_disj ps → t ∈ tv ps → t' ∈ tv ps → (∀ x, x ∈ t ↔ x ∈ t') → t = t'.
Proof.
  revert t t'. induction ps as [|p ps IH]; intros t t' Hd Ht Ht' Heq.
  - apply elem_of_tv in Ht, Ht'. inversion Ht; inversion Ht'; done.
  - apply parts_disj_cons in Hd as [Hd Hp]. pose proof Ht as Ht2. pose proof Ht' as Ht2'. rewrite elem_of_tv in Ht2, Ht2'.
    inversion Ht2 as [|x ? t1 ? Hx Ht1]; subst. inversion Ht2' as [|x' ? t1' ? Hx' Ht1']; subst.
    apply elem_of_tv in Ht1, Ht1'.
    assert (∀ u s, s ∈ tv ps → u ∈ s → u ∉ p) as Hout. { intros u s Hs Hu Hup. destruct (tv_elem s ps u Hs Hu) as (q & Hq & Huq). by apply (Hp q u Hq Hup). }
    assert (x = x') as ->.
    { assert (x ∈ x' :: t1') as [?|Hin]%elem_of_cons by (apply Heq; left); [done|]. by destruct (Hout x t1' Ht1' Hin). }
    f_equal. apply IH; [done|done|done|]. intros u. split; intros Hu.
    + assert (u ∈ x' :: t1') as [->|?]%elem_of_cons by (apply Heq; by right); [|done]. by destruct (Hout x' t1 Ht1 Hu).
    + assert (u ∈ x' :: t1) as [->|?]%elem_of_cons by (apply Heq; by right); [|done]. by destruct (Hout x' t1' Ht1' Hu).
Qed.

(** [G] is the complete multipartite graph with the given parts. *)
Definition multipartite (G : graph) (ps : list (list N)) : Prop :=
  (∀ x, vtx G x ↔ ∃ p, p ∈ ps ∧ x ∈ p) ∧
  ∀ x y, adj G x y ↔ ∃ i j p q, i ≠ j ∧ ps !! i = Some p ∧ x ∈ p ∧ ps !! j = Some q ∧ y ∈ q.

Lemma multi_max_clique G ps X : ps ≠ [] → parts_disj ps → (∀ p, p ∈ ps → p ≠ []) → multipartite G ps →
  max_clique G X ↔ ∃ t, t ∈ tv ps ∧ X = list_to_set t.
Proof.
  intros Hps Hd Hne [HV HA]. split.
  - intros (_ & HX & Hcl & Hmax).
    assert (∀ p, p ∈ ps → ∃ x, x ∈ p ∧ x ∈ X) as Hex.
    { intros p Hp. destruct p as [|y p'] eqn:Ep; [by apply Hne in Hp|]. rewrite <- Ep in *. assert (y ∈ p) as Hy by (rewrite Ep; left).
      destruct (decide (y ∈ X)) as [Hin|Hin]; [eauto|]. destruct (Hmax y) as (x & Hx & Hna); [apply HV; eauto|done|]. exists x. split; [|done].
      destruct (proj1 (HV x) (HX x Hx)) as (q & Hq & Hxq). apply elem_of_list_lookup in Hp as [i Hi], Hq as [j Hj].
      destruct (decide (i = j)) as [->|Hij]; [by simplify_eq|]. destruct Hna. apply HA. exists i, j, p, q. done. }
    assert (∀ ps', (∀ p, p ∈ ps' → p ∈ ps) → ∃ t, Forall2 (λ x p, x ∈ p ∧ x ∈ X) t ps') as Hch.
    { induction ps' as [|p ps' IH]; intros Hsub; [by exists []|]. destruct IH as [t Ht]; [intros q Hq; apply Hsub; by right|].
      destruct (Hex p) as (x & Hx); [apply Hsub; left|]. exists (x :: t). by constructor. }
    destruct (Hch ps) as [t Ht]; [done|]. exists t. split.
    + apply elem_of_tv. eapply Forall2_impl; [exact Ht|]. by intros ? ? [? _].
    + apply set_eq. intros u. rewrite elem_of_list_to_set. split.
      * intros Hu. destruct (proj1 (HV u) (HX u Hu)) as (p & Hp & Hup). apply elem_of_list_lookup in Hp as [i Hi].
        destruct (Forall2_lookup_r _ _ _ _ _ Ht Hi) as (x & Hx & Hxp & HxX). destruct (decide (u = x)) as [->|Hux]; [by eapply elem_of_list_lookup_2|].
        destruct (proj1 (HA u x) (Hcl u x Hu HxX Hux)) as (a & b & p1 & p2 & Hab & Ha & H1 & Hb & H2).
        assert (a = i) as -> by exact (Hd a i p1 p u Ha Hi H1 Hup). assert (b = i) as -> by exact (Hd b i p2 p x Hb Hi H2 Hxp). done.
      * intros [i Hi]%elem_of_list_lookup. by destruct (Forall2_lookup_l _ _ _ _ _ Ht Hi) as (p & _ & _ & ?).
  - intros (t & Ht & ->). pose proof Ht as Ht2. rewrite elem_of_tv in Ht2. split_and!.
    + destruct ps as [|p ps]; [done|]. inversion Ht2; subst. set_solver.
    + intros x Hx%elem_of_list_to_set. apply HV. by eapply tv_elem.
    + intros x y Hx%elem_of_list_to_set Hy%elem_of_list_to_set Hxy. apply elem_of_list_lookup in Hx as [i Hi], Hy as [j Hj].
      destruct (Forall2_lookup_l _ _ _ _ _ Ht2 Hi) as (p & Hp & Hxp). destruct (Forall2_lookup_l _ _ _ _ _ Ht2 Hj) as (q & Hq & Hyq).
      apply HA. exists i, j, p, q. split_and!; try done. intros ->. by simplify_eq.
    + intros y (p & Hp & Hyp)%HV Hn. apply elem_of_list_lookup in Hp as [i Hi]. destruct (Forall2_lookup_r _ _ _ _ _ Ht2 Hi) as (x & Hx & Hxp).
      exists x. split; [by eapply elem_of_list_to_set, elem_of_list_lookup_2|]. intros (a & b & p1 & p2 & Hab & Ha & H1 & Hb & H2)%HA.
      assert (a = i) as -> by exact (Hd a i p1 p y Ha Hi H1 Hyp). assert (b = i) as -> by exact (Hd b i p2 p x Hb Hi H2 Hxp). done.
Qed.

Lemma count_multipartite (L : lgraph) ps : lgraph_wf L → ps ≠ [] → parts_disj ps → (∀ p, p ∈ ps → p ≠ [] ∧ NoDup p) → multipartite L ps →
  count_max_cliques L = Ok (prod_nat (length <$> ps)).
Proof.
  intros HL Hps Hd Hp Hm. destruct (C44_multipartite L HL) as (K & HK & HKx).
  { intros v _.
    set (idx := λ x : N, N.of_nat (default 0 (fst <$> list_find (λ p, x ∈ p) ps))).
    assert (∀ x i p, ps !! i = Some p → x ∈ p → idx x = N.of_nat i) as Hidx.
    { intros x i p Hi Hx. unfold idx. destruct (list_find (λ p, x ∈ p) ps) as [[j q]|] eqn:E.
      - apply list_find_Some in E as (Hj & Hxq & _). cbn. f_equal. exact (Hd j i q p x Hj Hi Hxq Hx).
      - apply list_find_None in E. rewrite Forall_forall in E. destruct (E p); [by eapply elem_of_list_lookup_2|done]. }
    destruct Hm as [HV HA]. exists idx. intros x y Hx _ Hy _.
    assert (∀ z, adj L v z → ∃ i p, ps !! i = Some p ∧ z ∈ p) as Hz by (intros z (i & j & p & q & _ & _ & _ & Hj & Hq)%HA; eauto).
    destruct (Hz x Hx) as (i & p & Hi & Hxp), (Hz y Hy) as (j & q & Hj & Hyq). rewrite (Hidx x i p Hi Hxp), (Hidx y j q Hj Hyq), HA. split.
    - intros (a & b & p1 & p2 & Hab & Ha & H1 & Hb & H2). assert (a = i) as -> by exact (Hd a i p1 p x Ha Hi H1 Hxp). assert (b = j) as -> by exact (Hd b j p2 q y Hb Hj H2 Hyq). lia.
    - intros Hij. exists i, j, p, q. split_and!; try done. intros ->. done. }
  rewrite HK. f_equal. rewrite <- tv_length.
  assert (K = list_to_set (list_to_set <$> tv ps)) as ->.
  { apply set_eq. intros X. rewrite HKx, elem_of_list_to_set, elem_of_list_fmap, (multi_max_clique L ps X Hps Hd); [|intros p Hpp; by apply Hp|done].
    split; intros (t & H1 & H2); eauto. }
  rewrite size_list_to_set, fmap_length; [done|]. apply NoDup_fmap_2_strong; [|apply tv_nodup; intros p Hpp; by apply Hp].
  intros t t' Ht Ht' Heq. apply (tv_inj ps); [done|done|done|]. intros x. rewrite <- (elem_of_list_to_set (C := gset N) x t), Heq. apply elem_of_list_to_set.
Qed.

(** ** Triangle-free graphs *)
Lemma edges_count (G : graph) (l : list (N * N)) : graph_wf G → NoDup l → (∀ u v, (u, v) ∈ l ↔ (u <= v)%N ∧ adj G u v) → num_edges G = length l.
Proof.
  intros Hwf Hnd Hl. destruct (wf_num_edges _ Hwf) as (E & HE & ->). rewrite <- (size_list_to_set (C := gset (N * N)) l Hnd). f_equal.
  apply set_eq. intros [u v]. by rewrite HE, elem_of_list_to_set, Hl.
Qed.
Lemma count_triangle_free (L : lgraph) (I : gset N) : lgraph_wf L → (∀ x y z, adj L x y → adj L y z → ¬ adj L x z) →
  (∀ v, v ∈ I ↔ vtx L v ∧ ∀ u, ¬ adj L v u) → count_max_cliques L = Ok (num_edges L + size I).
Proof.
  intros HL Ht HI. pose proof (lwf_graph L HL) as Hwf. pose proof (lwf_loopless L HL) as Hl.
  destruct (C44_triangle_free L HL Ht) as (K & HK & HKx). rewrite HK. f_equal.
  destruct (wf_num_edges _ Hwf) as (E & HE & ->). unfold size at 2 3. cbn.
  set (es := (λ e : N * N, {[e.1; e.2]} : gset N) <$> elements E). set (is := (λ v : N, {[v]} : gset N) <$> elements I).
  assert (NoDup (es ++ is)) as Hnd.
  { apply NoDup_app. split_and!.
    - apply NoDup_fmap_2_strong; [|apply NoDup_elements]. intros [a b] [c d] [Hle Ha]%elem_of_elements%HE [Hle' Hc]%elem_of_elements%HE Heq. cbn [fst snd] in *.
      assert (a ≠ b) by (intros ->; by apply (Hl b)). assert (c ≠ d) by (intros ->; by apply (Hl d)).
      assert (a ∈ ({[c; d]} : gset N)) as H1 by (rewrite <- Heq; clear; set_solver). assert (b ∈ ({[c; d]} : gset N)) as H2 by (rewrite <- Heq; clear; set_solver).
      apply elem_of_union in H1, H2. rewrite !elem_of_singleton in H1, H2. destruct H1 as [->| ->], H2 as [->| ->]; try done. f_equal; lia.
    - intros X ([a b] & -> & [Hle Ha]%elem_of_elements%HE)%elem_of_list_fmap (v & Heq & _)%elem_of_list_fmap. cbn [fst snd] in *.
      assert (a ≠ b) as Hab by (intros ->; by apply (Hl b)). apply Hab.
      assert (a ∈ ({[v]} : gset N)) as ->%elem_of_singleton by (rewrite <- Heq; clear; set_solver).
      assert (b ∈ ({[v]} : gset N)) as ->%elem_of_singleton by (rewrite <- Heq; clear; set_solver). done.
    - apply NoDup_fmap_2; [intros a b Heq; by apply singleton_inj in Heq|apply NoDup_elements]. }
  assert (K = list_to_set (es ++ is)) as ->.
  { apply set_eq. intros X. rewrite HKx, elem_of_list_to_set, elem_of_app. unfold es, is. rewrite !elem_of_list_fmap. split.
    - intros (Hne & HX & Hcl & Hmax). apply set_choose_L in Hne as [a Ha].
      destruct (decide (X = {[a]})) as [->|HXa].
      + right. exists a. split; [done|]. apply elem_of_elements, HI. split; [apply HX; set_solver|]. intros u Hu.
        assert (u ≠ a) as Hua by (intros ->; by apply (Hl a)). destruct (Hmax u) as (x & ->%elem_of_singleton & Hn); [by eapply (wf_adj_vtx _ Hwf), (wf_adj_sym _ Hwf)|set_solver|].
        apply Hn. by apply (wf_adj_sym _ Hwf).
      + left. assert (∃ b, b ∈ X ∧ b ≠ a) as (b & Hb & Hba).
        { destruct (set_choose_or_empty (X ∖ {[a]})) as [[b Hb]|He]; [exists b; set_solver|]. destruct HXa. apply set_eq. intros z. split; [|set_solver].
          intros Hz. destruct (decide (z = a)) as [->|]; [set_solver|]. assert (z ∈ X ∖ {[a]}) as Hz' by set_solver. rewrite He in Hz'. set_solver. }
        assert (adj L a b) as Hab by (by apply Hcl). assert (X = {[a; b]}) as HXab.
        { apply set_eq. intros z. split; [|set_solver]. intros Hz. destruct (decide (z = a)) as [->|Hza]; [clear; set_solver|].
          destruct (decide (z = b)) as [->|Hzb]; [clear; set_solver|]. destruct (Ht a b z Hab); [by apply Hcl|by apply Hcl]. }
        destruct (decide (a <= b)%N) as [Hle|Hle].
        * exists (a, b). split; [exact HXab|]. by apply elem_of_elements, HE.
        * exists (b, a). split; [rewrite HXab; cbn; clear; set_solver|]. apply elem_of_elements, HE. split; [lia|by apply (wf_adj_sym _ Hwf)].
    - intros [([a b] & -> & [Hle Hab]%elem_of_elements%HE)|(v & -> & [Hv Hiso]%elem_of_elements%HI)]; cbn [fst snd].
      + pose proof (wf_adj_sym _ Hwf _ _ Hab) as Hba. split_and!; [set_solver| | |].
        * intros x [->%elem_of_singleton| ->%elem_of_singleton]%elem_of_union; by eapply (wf_adj_vtx _ Hwf).
        * intros x y [->%elem_of_singleton| ->%elem_of_singleton]%elem_of_union [->%elem_of_singleton| ->%elem_of_singleton]%elem_of_union Hne; done.
        * intros y Hy Hn. destruct (adjacent L y a) eqn:Ey; [|exists a; split; [clear; set_solver|unfold adj; congruence]]. exists b. split; [clear; set_solver|]. by apply (Ht y a b).
      + split_and!; [clear; set_solver|by intros x ->%elem_of_singleton|intros x y ->%elem_of_singleton ->%elem_of_singleton Hne; by destruct Hne|].
        intros y _ Hn. exists v. split; [by apply elem_of_singleton|]. intros Hyv. by apply (Hiso y), (wf_adj_sym _ Hwf). }
  rewrite size_list_to_set, app_length by done. unfold es, is. by rewrite !fmap_length.
Qed.
