(** More about count_max_cliques (C44): a wider class of orders on which the count is right, and a graph
    on which it is too small. *)
From Verif Require Import Base Spec M_Graph M_Iterators M_OrdGraph M_Linear S_Graph S_Linear S_Cliques
  P_Linear P_Cliques P_Cliques2 Examples.

(** The left neighbours of [v] fall into classes such that two of them are adjacent exactly if they are
    in different classes. *)
Definition left_multipartite (L : lgraph) (v : N) : Prop := ∃ part : N → N, ∀ x y,
  adj L v x → before (vertices L) x v → adj L v y → before (vertices L) y v → adj L x y ↔ part x ≠ part y.

(** Cliques (all classes are single vertices) and independent sets (one class) are special cases. *)
Theorem C44_multipartite (L : lgraph) : lgraph_wf L → (∀ v, contains L v = true → left_multipartite L v) →
  ∃ K : gset (gset N), count_max_cliques L = Ok (size K) ∧ ∀ X, X ∈ K ↔ max_clique L X.
Proof.
  intros HL Hm. apply (count_multi L HL). intros v x y z [Hx Hbx] [Hy Hby] [Hz Hbz].
  destruct (Hm v) as [part Hp]; [by eapply wf_adj_vtx; [exact (lwf_graph L HL)|]|].
  rewrite !Hp by done. intros H1 H2 H3. apply H1. intros H4. apply H2. congruence.
Qed.

(** ** A wheel over a cycle of length four, the hub last *)
Lemma before_seq (x v : N) : before [0; 1; 2; 3; 4; 5; 6]%N x v → (x < v)%N.
Proof.
  intros (i & j & Hi & Hj & Hij). unfold pos in *.
  do 7 (destruct i as [|i]; [do 7 (destruct j as [|j]; [cbn in Hi, Hj; simplify_eq; lia|]); done|]). done.
Qed.
Definition ex_wheel : list (N * N) := [(0, 2); (0, 3); (1, 2); (1, 3); (4, 0); (4, 1); (4, 2); (4, 3); (5, 4); (6, 5)]%N.
Definition ex_wheel_lin : lgraph := ex_lin ex_wheel [0; 1; 2; 3; 4; 5; 6]%N.
Definition ex_part (x : N) : N := if (x <? 2)%N then 0%N else if (x <? 4)%N then 1%N else 2%N.
Definition ex_parts_ok : bool :=
  let vs := [0; 1; 2; 3; 4; 5; 6]%N in
  forallb (λ v, forallb (λ x, forallb (λ y,
    negb (adjacent ex_wheel_lin v x && (x <? v)%N && adjacent ex_wheel_lin v y && (y <? v)%N) ||
    bool_decide (adjacent ex_wheel_lin x y = negb (ex_part x =? ex_part y)%N)) vs) vs) vs.
Example ex_C44_multipartite : lgraph_wf ex_wheel_lin ∧
  (∀ v, contains ex_wheel_lin v = true → left_multipartite ex_wheel_lin v) ∧
  ¬ left_clique ex_wheel_lin 4 ∧ ¬ left_independent ex_wheel_lin 4 ∧ count_max_cliques ex_wheel_lin = Ok 6.
Proof.
  destruct (ex_lin_spec ex_wheel [0; 1; 2; 3; 4; 5; 6]%N) as (_ & Hwf & Hvs & Hc & Ha); [vm_compute; done|]. fold ex_wheel_lin in *.
  assert (count_max_cliques ex_wheel_lin = Ok 6) as Hcount by (vm_compute; done).
  assert (ex_parts_ok = true) as Hok by (vm_compute; done).
  assert (adjacent ex_wheel_lin 4 0 = true ∧ adjacent ex_wheel_lin 4 1 = true ∧ adjacent ex_wheel_lin 4 2 = true ∧
    adjacent ex_wheel_lin 0 1 = false ∧ adjacent ex_wheel_lin 0 2 = true) as (A0 & A1 & A2 & A01 & A02) by (split_and!; vm_compute; reflexivity).
  assert (before [0; 1; 2; 3; 4; 5; 6]%N 0%N 4%N ∧ before [0; 1; 2; 3; 4; 5; 6]%N 1%N 4%N ∧ before [0; 1; 2; 3; 4; 5; 6]%N 2%N 4%N) as (B0 & B1 & B2).
  { split_and!; [exists 0, 4|exists 1, 4|exists 2, 4]; (split_and!; [done|done|lia]). }
  rewrite <- Hvs in B0, B1, B2. unfold ex_parts_ok in Hok. set (L := ex_wheel_lin) in *. clearbody L.
  split_and!; [done| | | |done].
  - intros v Hv. exists ex_part. intros x y Hx Hbx Hy Hby. rewrite Hvs in Hbx, Hby. apply before_seq in Hbx, Hby.
    rewrite forallb_forall in Hok. specialize (Hok v). rewrite forallb_forall in Hok.
    assert (∀ z, contains L z = true → In z [0; 1; 2; 3; 4; 5; 6]%N) as Hin by (intros z Hz%Hc; by apply elem_of_list_In).
    assert (contains L x = true ∧ contains L y = true) as [Hcx Hcy].
    { split; [eapply (wf_adj_vtx L (lwf_graph L Hwf) x v)|eapply (wf_adj_vtx L (lwf_graph L Hwf) y v)]; by apply (wf_adj_sym _ (lwf_graph L Hwf)). }
    specialize (Hok (Hin v Hv) x (Hin x Hcx)). rewrite forallb_forall in Hok. specialize (Hok y (Hin y Hcy)).
    unfold adj in *. rewrite Hx, Hy in Hok. apply N.ltb_lt in Hbx, Hby. rewrite Hbx, Hby in Hok. cbn [andb negb orb] in Hok.
    apply bool_decide_eq_true in Hok. rewrite Hok. rewrite negb_true_iff. apply N.eqb_neq.
  - intros Hcl. assert (adj L 0%N 1%N) as Hb; [by apply Hcl|]. unfold adj in Hb. congruence.
  - intros Hi. by apply (Hi 0%N 2%N).
Qed.

(** ** The count can also be too small: 7 instead of 8 *)
Definition ex_under : list (N * N) := [(0, 1); (0, 3); (0, 4); (0, 5); (0, 6); (1, 2); (1, 4); (1, 6); (2, 3); (2, 4); (2, 6);
  (3, 4); (3, 5); (3, 6); (4, 5); (5, 6)]%N.
Definition ex_under_lin : lgraph := ex_lin ex_under [0; 1; 2; 3; 4; 5; 6]%N.
Definition ex_under_cliques : list (list N) :=
  [[0; 1; 4]; [2; 3; 4]; [1; 2; 4]; [0; 3; 5; 6]; [2; 3; 6]; [0; 3; 4; 5]; [0; 1; 6]; [1; 2; 6]]%N.
Definition mc_check (L : lgraph) (vs X : list N) : bool :=
  bool_decide (X ≠ []) && forallb (λ x, bool_decide (x ∈ vs)) X &&
  forallb (λ x, forallb (λ y, bool_decide (x = y) || adjacent L x y) X) X &&
  forallb (λ y, bool_decide (y ∈ X) || existsb (λ x, negb (adjacent L y x)) X) vs.
Lemma mc_check_sound (L : lgraph) (vs X : list N) : (∀ u, contains L u = true ↔ u ∈ vs) → mc_check L vs X = true → max_clique L (list_to_set X).
Proof.
  intros Hc H. unfold mc_check in H. rewrite !andb_true_iff, !forallb_forall in H. destruct H as (((Hne%bool_decide_eq_true & Hs) & Hcl) & Hm).
  split_and!.
  - destruct X; [done|set_solver].
  - intros x Hx%elem_of_list_to_set%elem_of_list_In%Hs%bool_decide_eq_true. by apply Hc.
  - intros x y Hx%elem_of_list_to_set%elem_of_list_In Hy%elem_of_list_to_set%elem_of_list_In Hxy. specialize (Hcl x Hx).
    rewrite forallb_forall in Hcl. specialize (Hcl y Hy). by rewrite bool_decide_false in Hcl.
  - intros y Hy Hn. rewrite elem_of_list_to_set in Hn. specialize (Hm y). rewrite (bool_decide_false (y ∈ X)) in Hm by done.
    cbn [orb] in Hm. apply existsb_exists in Hm as (x & Hx & Hna); [|by apply elem_of_list_In, Hc].
    exists x. split; [by apply elem_of_list_to_set, elem_of_list_In|]. apply negb_true_iff in Hna. unfold adj. congruence.
Qed.
Theorem C44_undercount_refuted : ∃ (L : lgraph) (n : nat), lgraph_wf L ∧ count_max_cliques L = Ok n ∧
  ∀ K : gset (gset N), (∀ X, X ∈ K ↔ max_clique L X) → n < size K.
Proof.
  exists ex_under_lin, 7. destruct (ex_lin_spec ex_under [0; 1; 2; 3; 4; 5; 6]%N) as (_ & Hwf & _ & Hc & _); [vm_compute; done|].
  split; [exact Hwf|]. split; [vm_compute; reflexivity|]. intros K HK.
  assert (forallb (mc_check ex_under_lin [0; 1; 2; 3; 4; 5; 6]%N) ex_under_cliques = true) as Hall by (vm_compute; reflexivity).
  assert (size (list_to_set ((λ X, list_to_set X) <$> ex_under_cliques) : gset (gset N)) = 8) as Hsz by (vm_compute; reflexivity).
  assert (list_to_set ((λ X, list_to_set X) <$> ex_under_cliques) ⊆ K) as Hsub.
  { intros X (X' & -> & HX)%elem_of_list_to_set%elem_of_list_fmap. apply HK. eapply mc_check_sound; [exact Hc|].
    rewrite forallb_forall in Hall. by apply Hall, elem_of_list_In. }
  apply subseteq_size in Hsub. rewrite Hsz in Hsub. lia.
Qed.

Print Assumptions C44_multipartite.
Print Assumptions C44_undercount_refuted.
