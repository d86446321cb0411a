(** Proofs about M_EditGraph: the representation relation and the four editing
    operations. *)
From Verif Require Import Base Spec M_Graph M_Iterators M_EditGraph.

(** ** Unordered pairs *)
Lemma upair_comm u v : upair u v = upair v u.
Proof.
  unfold upair. destruct (N.leb_spec u v), (N.leb_spec v u); try done; try lia.
  f_equal; lia.
Qed.

Lemma upair_inj u v x y : upair u v = upair x y ↔ (u = x ∧ v = y) ∨ (u = y ∧ v = x).
Proof.
  unfold upair. destruct (N.leb_spec u v), (N.leb_spec x y); split;
    intros; destruct_or?; destruct_and?; simplify_eq; auto; try lia.
  f_equal; lia.
Qed.

Lemma upair_le u v : ((upair u v).1 <= (upair u v).2)%N.
Proof. unfold upair. destruct (N.leb_spec u v); cbn; lia. Qed.

Lemma upair_id e : (e.1 <= e.2)%N → upair e.1 e.2 = e.
Proof. unfold upair. destruct e as [a b]; cbn. destruct (N.leb_spec a b); [done|lia]. Qed.

Lemma upair_le_id u v : (u <= v)%N → upair u v = (u, v).
Proof. apply (upair_id (u, v)). Qed.

Lemma upair_cases u v : upair u v = (u, v) ∨ upair u v = (v, u).
Proof. unfold upair. destruct (N.leb_spec u v); auto. Qed.

(** ** Counting *)
Definition ind (P : Prop) `{Decision P} : nat := if decide P then 1 else 0.

Lemma size_filter_insert {A} `{Countable A} (P : A → Prop) `{∀ x, Decision (P x)}
    (e : A) (E : gset A) :
  e ∉ E → size (filter P ({[e]} ∪ E)) = ind (P e) + size (filter P E).
Proof.
  intros He. unfold ind. rewrite (filter_union_L P). destruct (decide (P e)).
  - rewrite (filter_singleton_L P) by done.
    rewrite size_union by set_solver. by rewrite size_singleton.
  - rewrite (filter_singleton_not_L P) by done. by rewrite (left_id_L ∅ (∪)).
Qed.

Definition a_wf (G : agraph) : Prop :=
  ∀ e, e ∈ ae G → (e.1 <= e.2)%N ∧ e.1 ∈ av G ∧ e.2 ∈ av G.

Lemma ind_upair u v x :
  ind ((upair u v).1 = x) + ind ((upair u v).2 = x) = ind (x = u) + ind (x = v).
Proof.
  unfold ind. destruct (upair_cases u v) as [-> | ->]; cbn;
    repeat case_decide; subst; lia.
Qed.

Lemma a_degree_add G u v x :
  upair u v ∉ ae G →
  a_degree (a_add_edge G u v) x = a_degree G x + ind (x = u) + ind (x = v).
Proof.
  intros He. unfold a_degree, a_add_edge; cbn [ae].
  rewrite !size_filter_insert by done.
  pose proof (ind_upair u v x). lia.
Qed.

Lemma a_degree_remove G u v x :
  upair u v ∈ ae G →
  a_degree G x = a_degree (a_remove_edge G u v) x + ind (x = u) + ind (x = v).
Proof.
  intros He. unfold a_degree, a_remove_edge; cbn [ae].
  set (E := ae G ∖ {[upair u v]}).
  assert (ae G = {[upair u v]} ∪ E) as ->.
  { subst E. apply set_eq. intros e. destruct (decide (e = upair u v)); set_solver. }
  rewrite !size_filter_insert by (subst E; set_solver).
  pose proof (ind_upair u v x). lia.
Qed.

Lemma size_remove (E : gset (N * N)) e : e ∈ E → size E = S (size (E ∖ {[e]})).
Proof.
  intros He. assert (E = {[e]} ∪ E ∖ {[e]}) as HE.
  { apply set_eq. intros e'. destruct (decide (e' = e)); set_solver. }
  rewrite HE at 1. rewrite size_union by set_solver.
  rewrite !size_singleton. lia.
Qed.

Lemma a_degree_0 G u : a_wf G → u ∉ av G → a_degree G u = 0.
Proof.
  intros Hwf Hu. unfold a_degree.
  assert (∀ (f : N * N → N), (∀ e, e ∈ ae G → f e ∈ av G) →
     size (filter (λ e, f e = u) (ae G)) = 0) as HH.
  { intros f Hf. apply size_empty_iff. intros e. rewrite elem_of_filter.
    split; [|set_solver]. intros [<- He]. destruct Hu. by apply Hf. }
  rewrite (HH fst), (HH snd); [done| |]; intros e He; by apply Hwf.
Qed.

(** ** Representation relation *)
Definition eg_nbr (g : editgraph) (u : N) : gset N := default ∅ (eg_adj g !! u).

Record eg_rep (g : editgraph) (G : agraph) : Prop := {
  rep_wf : a_wf G;
  rep_dom : ∀ u, is_Some (eg_adj g !! u) ↔ u ∈ av G;
  rep_adj : ∀ u v, v ∈ eg_nbr g u ↔ upair u v ∈ ae G;
  rep_degs : ∀ u, eg_degs g !! u = if decide (u ∈ av G) then Some (a_degree G u) else None;
  rep_m : eg_m g = size (ae G);
}.

Lemma rep_adjacent g G u v : eg_rep g G → eg_adjacent g u v = bool_decide (upair u v ∈ ae G).
Proof.
  intros HR. pose proof (rep_adj _ _ HR u v) as HA. unfold eg_nbr in HA.
  unfold eg_adjacent. destruct (eg_adj g !! u) as [X|]; cbn in *.
  - by apply bool_decide_ext.
  - symmetry. apply bool_decide_eq_false. set_solver.
Qed.

Lemma rep_contains g G u : eg_rep g G → eg_contains g u = bool_decide (u ∈ av G).
Proof.
  intros HR. pose proof (rep_dom _ _ HR u) as HD. unfold eg_contains.
  destruct (eg_adj g !! u); symmetry.
  - apply bool_decide_eq_true, HD. eauto.
  - apply bool_decide_eq_false. rewrite <- HD. by intros [? ?].
Qed.

Lemma rep_lookup g G u : eg_rep g G → u ∈ av G → eg_adj g !! u = Some (eg_nbr g u).
Proof.
  intros HR Hu. unfold eg_nbr. apply (rep_dom _ _ HR) in Hu. by destruct Hu as [? ->].
Qed.

Lemma rep_ends g G u v : eg_rep g G → upair u v ∈ ae G → u ∈ av G ∧ v ∈ av G.
Proof.
  intros HR He. pose proof (rep_wf _ _ HR _ He) as (_ & H1 & H2).
  destruct (upair_cases u v) as [E|E]; rewrite E in *; done.
Qed.

Lemma eg_new_rep : eg_rep eg_new a_empty.
Proof.
  split; cbn; try done.
  - intros u. rewrite lookup_empty. set_unfold. split; [by intros [? ?]|done].
Qed.

Lemma eg_add_vertex_rep g G u :
  eg_rep g G →
  eg_rep (eg_add_vertex g u).1 (a_add_vertex G u) ∧
  (eg_add_vertex g u).2 = bool_decide (u ∉ av G).
Proof.
  intros HR. unfold eg_add_vertex. pose proof (rep_dom _ _ HR u) as HD.
  destruct (eg_adj g !! u) eqn:E; cbn.
  - assert (u ∈ av G) as Hu by (apply HD; eauto).
    split; [|symmetry; apply bool_decide_eq_false; naive_solver].
    assert (a_add_vertex G u = G) as ->; [|done].
    unfold a_add_vertex. destruct G; cbn in *. f_equal. set_solver.
  - assert (u ∉ av G) as Hu by (rewrite <- HD; by intros [? ?]).
    split; [|symmetry; by apply bool_decide_eq_true].
    split; cbn.
    + intros e He. pose proof (rep_wf _ _ HR e He). set_solver.
    + intros v. destruct (decide (v = u)) as [->|].
      * rewrite lookup_insert. split; [intros _; set_solver|eauto].
      * rewrite lookup_insert_ne by done. rewrite (rep_dom _ _ HR). set_solver.
    + intros x v. rewrite <- (rep_adj _ _ HR). unfold eg_nbr; cbn.
      destruct (decide (x = u)) as [->|].
      * by rewrite lookup_insert, E.
      * by rewrite lookup_insert_ne.
    + intros x. destruct (decide (x = u)) as [->|].
      * rewrite lookup_insert, decide_True by set_solver. f_equal.
        symmetry. by apply (a_degree_0 G u (rep_wf _ _ HR)).
      * rewrite lookup_insert_ne by done. rewrite (rep_degs _ _ HR).
        repeat case_decide; set_solver.
    + apply (rep_m _ _ HR).
Qed.

Lemma eg_add_edge_rep g G u v :
  eg_rep g G →
  ∃ g', eg_add_edge g u v = Ok (g', bool_decide (upair u v ∉ ae G)) ∧
        eg_rep g' (a_add_edge G u v).
Proof.
  intros HR0. unfold eg_add_edge.
  destruct (eg_add_vertex_rep g G u HR0) as [HR1 _].
  destruct (eg_add_vertex_rep _ _ v HR1) as [HR _].
  set (g2 := (eg_add_vertex (eg_add_vertex g u).1 v).1) in *.
  set (G2 := a_add_vertex (a_add_vertex G u) v) in *.
  assert (ae G2 = ae G) as HE by done.
  assert (u ∈ av G2) as Hu by set_solver.
  assert (v ∈ av G2) as Hv by set_solver.
  assert (a_add_edge G u v = a_add_edge G2 u v) as ->.
  { unfold a_add_edge, G2; cbn. f_equal. set_solver. }
  clearbody g2 G2. clear HR1.
  rewrite (rep_adjacent _ _ _ _ HR), HE.
  destruct (decide (upair u v ∈ ae G)) as [He|He].
  - rewrite bool_decide_eq_true_2 by done. cbn.
    exists g2. split; [by rewrite bool_decide_eq_false_2 by naive_solver|].
    assert (a_add_edge G2 u v = G2) as ->; [|done].
    unfold a_add_edge. destruct G2; cbn in *. f_equal; set_solver.
  - rewrite bool_decide_eq_false_2 by done. cbn.
    rewrite (bool_decide_eq_true_2 (upair u v ∉ ae G)) by done.
    rewrite (rep_lookup _ _ _ HR Hu). cbn.
    assert (∃ Nv, <[u:={[v]} ∪ eg_nbr g2 u]> (eg_adj g2) !! v = Some Nv ∧
       ∀ x, x ∈ Nv ↔ x ∈ eg_nbr g2 v ∨ (u = v ∧ x = v)) as (Nv & -> & HNv).
    { destruct (decide (u = v)) as [->|].
      - rewrite lookup_insert. eexists; split; [done|]. set_solver.
      - rewrite lookup_insert_ne by done. rewrite (rep_lookup _ _ _ HR Hv).
        eexists; split; [done|]. naive_solver. }
    cbn. rewrite (rep_degs _ _ HR), decide_True by done. cbn.
    assert (∃ dv, <[u := a_degree G2 u + 1]> (eg_degs g2) !! v = Some dv ∧
       dv = a_degree G2 v + ind (v = u)) as (dv & -> & Hdv).
    { unfold ind. destruct (decide (v = u)) as [->|].
      - rewrite lookup_insert. eauto.
      - rewrite lookup_insert_ne by done. rewrite (rep_degs _ _ HR), decide_True by done.
        eexists; split; [done|]. lia. }
    cbn. eexists; split; [done|]. split; cbn.
    + intros e. cbn. rewrite elem_of_union, elem_of_singleton. intros [-> | H].
      * split; [apply upair_le|]. destruct (upair_cases u v) as [-> | ->]; set_solver.
      * pose proof (rep_wf _ _ HR e H). set_solver.
    + intros x. assert (x ∈ {[u]} ∪ {[v]} ∪ av G2 ↔ x ∈ av G2) as -> by set_solver.
      rewrite <- (rep_dom _ _ HR).
      destruct (decide (x = v)) as [->|]; [rewrite lookup_insert|rewrite lookup_insert_ne by done].
      { rewrite (rep_dom _ _ HR). split; eauto. }
      destruct (decide (x = u)) as [->|]; [rewrite lookup_insert|by rewrite lookup_insert_ne by done].
      { rewrite (rep_dom _ _ HR). split; eauto. }
    + intros x y. unfold eg_nbr at 1; cbn.
      rewrite elem_of_union, elem_of_singleton, upair_inj, <- (rep_adj _ _ HR).
      destruct (decide (x = v)) as [->|]; [rewrite lookup_insert|rewrite lookup_insert_ne by done]; cbn.
      { rewrite elem_of_union, elem_of_singleton, HNv. naive_solver. }
      destruct (decide (x = u)) as [->|]; [rewrite lookup_insert|rewrite lookup_insert_ne by done]; cbn.
      { set_solver. }
      { fold (eg_nbr g2 x). naive_solver. }
    + intros x. rewrite a_degree_add by (by rewrite HE).
      assert (decide (x ∈ {[u]} ∪ {[v]} ∪ av G2) = decide (x ∈ {[u]} ∪ {[v]} ∪ av G2)) by done.
      destruct (decide (x ∈ {[u]} ∪ {[v]} ∪ av G2)) as [Hx|Hx].
      * assert (x ∈ av G2) by set_solver. unfold ind in *.
        destruct (decide (x = v)) as [->|]; [rewrite lookup_insert|rewrite lookup_insert_ne by done].
        { f_equal. rewrite Hdv. lia. }
        destruct (decide (x = u)) as [->|]; [rewrite lookup_insert|rewrite lookup_insert_ne by done].
        { f_equal. lia. }
        rewrite (rep_degs _ _ HR), decide_True by done. f_equal. lia.
      * rewrite !lookup_insert_ne by set_solver.
        rewrite (rep_degs _ _ HR), decide_False by set_solver. done.
    + rewrite (rep_m _ _ HR). rewrite size_union, size_singleton by set_solver. lia.
Qed.

Lemma eg_remove_edge_rep g G u v :
  eg_rep g G →
  ∃ g', eg_remove_edge g u v = Ok (g', bool_decide (upair u v ∈ ae G)) ∧
        eg_rep g' (a_remove_edge G u v).
Proof.
  intros HR. unfold eg_remove_edge. rewrite (rep_adjacent _ _ _ _ HR).
  destruct (decide (upair u v ∈ ae G)) as [He|He].
  - rewrite !bool_decide_eq_true_2 by done.
    destruct (rep_ends _ _ _ _ HR He) as [Hu Hv].
    rewrite (rep_lookup _ _ _ HR Hu). cbn.
    assert (∃ Nv, <[u:= eg_nbr g u ∖ {[v]}]> (eg_adj g) !! v = Some Nv ∧
       ∀ x, x ∈ Nv ↔ x ∈ eg_nbr g v ∧ ¬ (u = v ∧ x = v)) as (Nv & -> & HNv).
    { destruct (decide (u = v)) as [->|].
      - rewrite lookup_insert. eexists; split; [done|]. set_solver.
      - rewrite lookup_insert_ne by done. rewrite (rep_lookup _ _ _ HR Hv).
        eexists; split; [done|]. naive_solver. }
    cbn. rewrite (rep_degs _ _ HR), decide_True by done. cbn.
    pose proof (a_degree_remove G u v u He) as Hdu.
    pose proof (a_degree_remove G u v v He) as Hdv.
    unfold sub_checked.
    destruct (Nat.leb_spec 1 (a_degree G u)) as [_|Hlt];
      [|unfold ind in Hdu; rewrite decide_True in Hdu by done; lia]. cbn [mbind res_bind].
    assert (∃ dv, <[u := a_degree G u - 1]> (eg_degs g) !! v = Some dv ∧
       dv = a_degree G v - ind (v = u)) as (dv & -> & Hdv').
    { unfold ind. destruct (decide (v = u)) as [->|].
      - rewrite lookup_insert. eauto.
      - rewrite lookup_insert_ne by done. rewrite (rep_degs _ _ HR), decide_True by done.
        eexists; split; [done|]. lia. }
    cbn [unwrap mbind res_bind].
    destruct (Nat.leb_spec 1 dv) as [_|Hlt];
      [|unfold ind in *; repeat case_decide; simplify_eq; lia]. cbn [mbind res_bind].
    pose proof (size_remove _ _ He) as Hsz.
    rewrite (rep_m _ _ HR).
    destruct (Nat.leb_spec 1 (size (ae G))) as [_|Hlt]; [|lia]. cbn [mbind res_bind].
    eexists; split; [done|]. split; cbn.
    + intros e. cbn. set_unfold. intros [H _]. apply (rep_wf _ _ HR e H).
    + intros x. rewrite <- (rep_dom _ _ HR).
      destruct (decide (x = v)) as [->|]; [rewrite lookup_insert|rewrite lookup_insert_ne by done].
      { rewrite (rep_dom _ _ HR). split; eauto. }
      destruct (decide (x = u)) as [->|]; [rewrite lookup_insert|by rewrite lookup_insert_ne by done].
      { rewrite (rep_dom _ _ HR). split; eauto. }
    + intros x y. unfold eg_nbr at 1; cbn.
      rewrite elem_of_difference, elem_of_singleton, upair_inj, <- (rep_adj _ _ HR).
      destruct (decide (x = v)) as [->|]; [rewrite lookup_insert|rewrite lookup_insert_ne by done]; cbn.
      { rewrite elem_of_difference, elem_of_singleton, HNv. naive_solver. }
      destruct (decide (x = u)) as [->|]; [rewrite lookup_insert|rewrite lookup_insert_ne by done]; cbn.
      { set_solver. }
      { fold (eg_nbr g x). naive_solver. }
    + intros x. pose proof (a_degree_remove G u v x He) as Hx.
      destruct (decide (x ∈ av G)) as [Hxv|Hxv].
      * unfold ind in *.
        destruct (decide (x = v)) as [->|]; [rewrite lookup_insert|rewrite lookup_insert_ne by done].
        { f_equal. repeat case_decide; simplify_eq; lia. }
        destruct (decide (x = u)) as [->|]; [rewrite lookup_insert|rewrite lookup_insert_ne by done].
        { f_equal. repeat case_decide; simplify_eq; lia. }
        rewrite (rep_degs _ _ HR), decide_True by done. f_equal. lia.
      * rewrite !lookup_insert_ne by set_solver.
        rewrite (rep_degs _ _ HR), decide_False by set_solver. done.
    + lia.
  - rewrite bool_decide_eq_false_2 by done. exists g. split; [done|].
    assert (a_remove_edge G u v = G) as ->; [|done].
    unfold a_remove_edge. destruct G; cbn in *. f_equal; set_solver.
Qed.

Lemma upair_inj_r u v w : upair u v = upair u w → v = w.
Proof. rewrite upair_inj. naive_solver. Qed.

Section with_iter.
Context `{HI : HashIter}.

(** State in the middle of [remove_vertex]: everything but the entries of the
    vertex under removal represents [G]. *)
Record rep_ex (u : N) (l1 : list N) (d0 : nat) (g : editgraph) (G : agraph) : Prop := {
  rex_dom : ∀ x, is_Some (eg_adj g !! x) ↔ x ∈ av G;
  rex_adj : ∀ x y, x ≠ u → y ∈ eg_nbr g x ↔ upair x y ∈ ae G;
  rex_degs : ∀ x, x ≠ u → eg_degs g !! x = if decide (x ∈ av G) then Some (a_degree G x) else None;
  rex_degu : u ∉ l1 → eg_degs g !! u = Some d0;
  rex_m : eg_m g = size (ae G);
}.

Definition cut (G : agraph) (u : N) (l : list N) : agraph :=
  AGraph (av G) (ae G ∖ list_to_set (upair u <$> l)).

Lemma cut_snoc G u l v : cut G u (l ++ [v]) = a_remove_edge (cut G u l) u v.
Proof.
  unfold cut, a_remove_edge; cbn. f_equal.
  rewrite fmap_app, list_to_set_app_L. cbn. set_solver.
Qed.

Lemma eg_remove_vertex_rep g G u :
  eg_rep g G →
  ∃ g', eg_remove_vertex g u = Ok (g', bool_decide (u ∈ av G)) ∧
        eg_rep g' (a_remove_vertex G u).
Proof.
  intros HR. unfold eg_remove_vertex. rewrite (rep_contains _ _ _ HR).
  destruct (decide (u ∈ av G)) as [Hu|Hu].
  2:{ rewrite bool_decide_eq_false_2 by done. cbn. exists g. split; [done|].
      assert (a_remove_vertex G u = G) as ->; [|done].
      unfold a_remove_vertex. pose proof (rep_wf _ _ HR) as Hwf. destruct G as [V E]; cbn in *.
      f_equal; [set_solver|]. apply set_eq. intros e. rewrite elem_of_filter.
      split; [naive_solver|]. intros He. specialize (Hwf e He). cbn in Hwf.
      split; [|done]. split; intros <-; naive_solver. }
  rewrite bool_decide_eq_true_2 by done. cbn.
  rewrite (rep_lookup _ _ _ HR Hu). cbn.
  set (X := hash_iter 0 (eg_nbr g u)).
  assert (∀ v, v ∈ X ↔ upair u v ∈ ae G) as HX.
  { intros v. unfold X. rewrite elem_of_hash_iter. apply (rep_adj _ _ HR). }
  assert (NoDup X) as HND by apply NoDup_hash_iter.
  pose proof (fold_res_inv (eg_remove_vertex_step u)
    (λ l1 h, rep_ex u l1 (a_degree G u) h (cut G u l1)) X g) as HF.
  destruct HF as (g' & -> & Hg').
  - assert (cut G u [] = G) as ->.
    { unfold cut. cbn. destruct G; cbn. f_equal. set_solver. }
    split; try apply HR.
    + intros. apply HR.
    + intros. apply HR.
    + intros _. rewrite (rep_degs _ _ HR). by rewrite decide_True.
  - intros l1 v l2 h HXeq Hh.
    assert (v ∉ l1) as Hvl1.
    { rewrite HXeq in HND. apply NoDup_app in HND as (_ & HND & _). intros Hv.
      specialize (HND v Hv). set_solver. }
    assert (upair u v ∈ ae (cut G u l1)) as Hin.
    { cbn. rewrite elem_of_difference. split; [apply HX; rewrite HXeq; set_solver|].
      rewrite elem_of_list_to_set, elem_of_list_fmap. intros (w & E & Hw).
      apply upair_inj_r in E. by subst. }
    assert (v ∈ av G) as Hv.
    { eapply (rep_ends _ _ u v HR). apply HX. rewrite HXeq. set_solver. }
    rewrite cut_snoc. set (G1 := cut G u l1) in *.
    assert (av G1 = av G) as HG1 by done. clearbody G1.
    unfold eg_remove_vertex_step.
    destruct (proj2 (rex_dom _ _ _ _ _ Hh v)) as [Nv HNv]; [by rewrite HG1|].
    rewrite HNv. cbn [unwrap mbind res_bind].
    assert (∃ dv, eg_degs h !! v = Some dv ∧ 1 ≤ dv ∧
              (v ≠ u → dv = a_degree G1 v)) as (dv & -> & Hdv1 & Hdv2).
    { destruct (decide (v = u)) as [->|Hne].
      - exists (a_degree G u). split; [by apply Hh|]. split; [|done].
        assert (upair u u ∈ ae G) as Hl by (apply HX; rewrite HXeq; set_solver).
        rewrite (a_degree_remove G u u u Hl). unfold ind. rewrite decide_True by done. lia.
      - exists (a_degree G1 v). split; [|split; [|done]].
        + rewrite (rex_degs _ _ _ _ _ Hh) by done. rewrite decide_True; [done|].
          by rewrite HG1.
        + rewrite (a_degree_remove G1 u v v Hin). unfold ind.
          rewrite (decide_True (P:=v=v)) by done. lia. }
    cbn [unwrap mbind res_bind]. unfold sub_checked.
    destruct (Nat.leb_spec 1 dv); [|lia]. cbn [mbind res_bind].
    pose proof (size_remove _ _ Hin) as Hsz.
    rewrite (rex_m _ _ _ _ _ Hh).
    destruct (Nat.leb_spec 1 (size (ae G1))); [|lia]. cbn [mbind res_bind].
    eexists; split; [done|]. split; cbn.
    + intros x. rewrite <- (rex_dom _ _ _ _ _ Hh).
      destruct (decide (x = v)) as [->|]; [rewrite lookup_insert|by rewrite lookup_insert_ne].
      rewrite HNv. split; eauto.
    + intros x y Hx. unfold eg_nbr at 1; cbn.
      rewrite elem_of_difference, elem_of_singleton, upair_inj, <- (rex_adj _ _ _ _ _ Hh) by done.
      destruct (decide (x = v)) as [->|]; [rewrite lookup_insert|rewrite lookup_insert_ne by done]; cbn.
      { assert (eg_nbr h v = Nv) as -> by (unfold eg_nbr; by rewrite HNv).
        rewrite elem_of_difference, elem_of_singleton. naive_solver. }
      { fold (eg_nbr h x). naive_solver. }
    + intros x Hx. pose proof (a_degree_remove G1 u v x Hin) as Hd. unfold ind in Hd.
      rewrite (decide_False (P:=x=u)) in Hd by done.
      destruct (decide (x = v)) as [->|]; [rewrite lookup_insert|rewrite lookup_insert_ne by done].
      * rewrite decide_True by (by rewrite HG1). f_equal. rewrite Hdv2 by done.
        lia.
      * rewrite (rex_degs _ _ _ _ _ Hh) by done. repeat case_decide; [f_equal; lia|done].
    + intros Hul. rewrite lookup_insert_ne by set_solver. apply Hh. set_solver.
    + lia.
  - cbn. eexists; split; [done|].
    assert (a_remove_vertex G u = a_remove_vertex (cut G u X) u) as HGe.
    { unfold a_remove_vertex, cut; cbn. f_equal. apply set_eq. intros e.
      rewrite !elem_of_filter, elem_of_difference, elem_of_list_to_set, elem_of_list_fmap.
      split; [|naive_solver]. intros [[H1 H2] H3]. split_and!; [done|done|done|].
      intros (w & -> & _). destruct (upair_cases u w) as [E|E]; rewrite E in *; cbn in *; naive_solver. }
    assert (∀ e, e ∈ ae (cut G u X) → e.1 ≠ u ∧ e.2 ≠ u) as Hcut.
    { intros e. cbn. rewrite elem_of_difference, elem_of_list_to_set, elem_of_list_fmap.
      intros [He Hn]. pose proof (rep_wf _ _ HR e He) as (Hle & _).
      split; intros Heu; apply Hn.
      - exists e.2. rewrite <- Heu. split; [by rewrite upair_id|].
        apply HX. rewrite <- Heu. by rewrite upair_id.
      - exists e.1. rewrite <- Heu. rewrite upair_comm, upair_id by done. split; [done|].
        apply HX. rewrite <- Heu. by rewrite upair_comm, upair_id. }
    assert (a_remove_vertex (cut G u X) u = AGraph (av G ∖ {[u]}) (ae (cut G u X))) as HGe2.
    { unfold a_remove_vertex. f_equal. apply set_eq. intros e. rewrite elem_of_filter.
      naive_solver. }
    rewrite HGe, HGe2.
    assert (∀ x, a_degree (AGraph (av G ∖ {[u]}) (ae (cut G u X))) x = a_degree (cut G u X) x)
      as Hdeg by done.
    split.
    + intros e He. cbn in He |- *. pose proof (Hcut e He).
      assert (e ∈ ae G) as He' by (clear -He; set_solver).
      pose proof (rep_wf _ _ HR e He'). set_solver.
    + intros x. cbn. destruct (decide (x = u)) as [->|].
      * rewrite lookup_delete. split; [by intros [? ?]|set_solver].
      * rewrite lookup_delete_ne by done. rewrite (rex_dom _ _ _ _ _ Hg'). set_solver.
    + intros x y. unfold eg_nbr. cbn [eg_adj].
      destruct (decide (x = u)) as [->|].
      * rewrite lookup_delete. cbn [default from_option]. split; [set_solver|].
        intros He. apply Hcut in He. destruct (upair_cases u y) as [E|E]; rewrite E in *; naive_solver.
      * rewrite lookup_delete_ne by done. by apply Hg'.
    + intros x. rewrite Hdeg. cbn [av eg_degs]. destruct (decide (x = u)) as [->|].
      * rewrite lookup_delete, decide_False by set_solver. done.
      * rewrite lookup_delete_ne by done. rewrite (rex_degs _ _ _ _ _ Hg') by done.
        cbn [av cut]. repeat case_decide; set_solver.
    + apply (rex_m _ _ _ _ _ Hg').
Qed.

Lemma eg_step_rep g G o :
  eg_rep g G →
  ∃ g', eg_step g o = Ok (g', (a_step G o).2) ∧ eg_rep g' (a_step G o).1.
Proof.
  intros HR. destruct o; cbn.
  - destruct (eg_add_vertex_rep g G u HR) as [H1 H2].
    exists (eg_add_vertex g u).1. rewrite <- H2. by destruct (eg_add_vertex g u).
  - by apply eg_add_edge_rep.
  - by apply eg_remove_edge_rep.
  - by apply eg_remove_vertex_rep.
Qed.

Lemma eg_run_rep os g G :
  eg_rep g G →
  ∃ g', eg_run g os = Ok (g', (a_run G os).2) ∧ eg_rep g' (a_run G os).1.
Proof.
  revert g G. induction os as [|o os IH]; intros g G HR; cbn.
  - eauto.
  - destruct (eg_step_rep g G o HR) as (g1 & -> & HR1). cbn.
    destruct (a_step G o) as [G1 b]; cbn in *.
    destruct (IH g1 G1 HR1) as (g2 & -> & HR2). cbn.
    destruct (a_run G1 os) as [G2 bs]; cbn in *. eauto.
Qed.

End with_iter.
