(** Property C99: the results of the digraph functions depend neither on the hash order nor on the labels. *)
From Verif Require Import Base Spec M_Graph M_Iterators M_EditGraph M_EditDigraph M_Algorithms M_Operations S_Graph S_Digraph
  P_Graph P_EditGraph P_EditGraph2 P_EditDigraph P_EditDigraph2 P_Iso T_EditGraph T_Algorithms T_EditDigraph T_DiAlgos T_Iso.

(** [f] renames the vertices of the first digraph, and the second digraph is the result. *)
Definition drenames (f : N → N) (g1 g2 : editdigraph) : Prop :=
  (∀ u v, ed_contains g1 u = true → ed_contains g1 v = true → f u = f v → u = v) ∧
  (∀ x, ed_contains g2 x = true ↔ ∃ u, ed_contains g1 u = true ∧ x = f u) ∧
  ∀ u v, ed_contains g1 u = true → ed_contains g1 v = true → ed_has_arc g1 u v = ed_has_arc g2 (f u) (f v).

Section facts.
Context (f : N → N) (g1 g2 : editdigraph) (W1 : ed_wf g1) (W2 : ed_wf g2) (HR : drenames f g1 g2).

Lemma dren_inj u v : dvtx g1 u → dvtx g1 v → f u = f v → u = v.
Proof using HR. apply HR. Qed.
Lemma dren_vtx u : dvtx g1 u → dvtx g2 (f u).
Proof using HR. intros Hu. apply HR. by exists u. Qed.
Lemma dren_arc u v : dvtx g1 u → dvtx g1 v → darc g2 (f u) (f v) ↔ darc g1 u v.
Proof using HR. intros Hu Hv. unfold darc. by rewrite (proj2 (proj2 HR) u v Hu Hv). Qed.
Lemma dren_arcs x y : darc g2 x y ↔ ∃ u v, darc g1 u v ∧ x = f u ∧ y = f v.
Proof using W1 W2 HR.
  split.
  - intros Hxy. destruct (darc_vtx g2 x y W2 Hxy) as [Hx Hy]. destruct HR as (_ & Hv & _).
    apply Hv in Hx as (u & Hu & ->). apply Hv in Hy as (v & Hv' & ->). exists u, v. split; [|done]. by apply dren_arc.
  - intros (u & v & Huv & -> & ->). destruct (darc_vtx g1 u v W1 Huv) as [Hu Hv]. by apply dren_arc.
Qed.
Lemma dren_list (l1 l2 : list N) (P1 P2 : N → Prop) : NoDup l1 → NoDup l2 → (∀ u, u ∈ l1 ↔ P1 u) → (∀ x, x ∈ l2 ↔ P2 x) →
  (∀ u, P1 u → dvtx g1 u) → (∀ x, P2 x ↔ ∃ u, P1 u ∧ x = f u) → l2 ≡ₚ f <$> l1.
Proof using HR.
  intros N1 N2 H1 H2 HP HQ. apply NoDup_Permutation; [done| |].
  - apply NoDup_fmap_2_strong; [|done]. intros u v Hu%H1%HP Hv%H1%HP. by apply dren_inj.
  - intros x. rewrite H2, HQ, elem_of_list_fmap. split; [intros (u & ? & ->); exists u; by rewrite H1|intros (u & -> & ?%H1); by exists u].
Qed.
End facts.

(** ** Histories *)
Section ops.
Context (f : N → N) (Hf : Inj (=) (=) f).

Definition dren (A B : adigraph) : Prop :=
  (∀ y, y ∈ dv B ↔ ∃ x, x ∈ dv A ∧ y = f x) ∧ ∀ e, e ∈ da B ↔ ∃ u v, (u, v) ∈ da A ∧ e = (f u, f v).
Lemma dren_dv A B u : dren A B → f u ∈ dv B ↔ u ∈ dv A.
Proof using Hf. intros [Hv _]. rewrite Hv. split; [by intros (x & ? & ->%(inj f))|eauto]. Qed.
Lemma dren_da A B u v : dren A B → (f u, f v) ∈ da B ↔ (u, v) ∈ da A.
Proof using Hf. intros [_ He]. rewrite He. split; [|eauto]. by intros (a & b & ? & [= ->%(inj f) ->%(inj f)]). Qed.
Lemma dren_step A B o : dren A B → dren (d_step A o).1 (d_step B (rename_op f o)).1 ∧ (d_step B (rename_op f o)).2 = (d_step A o).2.
Proof using Hf.
  intros HR. pose proof HR as [Hv He]. destruct o as [u|u v|u v|u]; cbn [rename_op d_step fst snd].
  - split; [split; [|exact He]|apply bool_decide_ext; by rewrite (dren_dv A B)].
    intros y. cbn. rewrite elem_of_union, elem_of_singleton, Hv. setoid_rewrite elem_of_union. setoid_rewrite elem_of_singleton. naive_solver.
  - split; [split|apply bool_decide_ext; by rewrite (dren_da A B)].
    + intros y. cbn. rewrite !elem_of_union, !elem_of_singleton, Hv. setoid_rewrite elem_of_union. setoid_rewrite elem_of_union. setoid_rewrite elem_of_singleton. naive_solver.
    + intros e. cbn. rewrite elem_of_union, elem_of_singleton, He. setoid_rewrite elem_of_union. setoid_rewrite elem_of_singleton. naive_solver.
  - split; [split; [exact Hv|]|apply bool_decide_ext; by rewrite (dren_da A B)].
    intros e. cbn. rewrite elem_of_difference, not_elem_of_singleton, He. setoid_rewrite elem_of_difference. setoid_rewrite not_elem_of_singleton. split.
    + intros [(a & b & ? & ->) Hn]. exists a, b. split; [|done]. split; [done|]. intros [= -> ->]. by apply Hn.
    + intros (a & b & [? Hn] & ->). split; [by exists a, b|]. intros [= ->%(inj f) ->%(inj f)]. by apply Hn.
  - split; [split|apply bool_decide_ext; by rewrite (dren_dv A B)].
    + intros y. cbn. rewrite elem_of_difference, not_elem_of_singleton, Hv. setoid_rewrite elem_of_difference. setoid_rewrite not_elem_of_singleton. split.
      * intros [(x & ? & ->) Hn]. exists x. split; [|done]. split; [done|]. by intros ->.
      * intros (x & [? Hn] & ->). split; [eauto|]. by intros ->%(inj f).
    + intros e. cbn. rewrite elem_of_filter, He. setoid_rewrite elem_of_filter. cbn. split.
      * intros [[N1 N2] (a & b & ? & ->)]. cbn in N1, N2. exists a, b. split; [|done]. split; [|done]. split; congruence.
      * intros (a & b & [[N1 N2] ?] & ->). cbn. split; [|by exists a, b]. split; by intros ?%(inj f).
Qed.
Lemma dren_run os : ∀ A B, dren A B → dren (d_run A os).1 (d_run B (rename_op f <$> os)).1 ∧ (d_run B (rename_op f <$> os)).2 = (d_run A os).2.
Proof using Hf.
  induction os as [|o os IH]; intros A B HR; [done|]. cbn [fmap list_fmap d_run].
  destruct (dren_step A B o HR) as [HR' Hb]. destruct (d_step A o) as [A' b], (d_step B (rename_op f o)) as [B' b']. cbn [fst snd] in *. subst b'.
  destruct (IH A' B' HR') as [HR2 Hbs]. cbn [fmap] in *. destruct (d_run A' os), (d_run B' _). cbn [fst snd] in *. by subst.
Qed.
Lemma dren_empty : dren d_empty d_empty.
Proof using.
  clear Hf. split; cbn; [intros y|intros e]; (split; [by intros ?%elem_of_empty|]); [intros (x & ?%elem_of_empty & _); done|].
  intros (u & v & ?%elem_of_empty & _). done.
Qed.
End ops.

(** The same calls with renamed vertices give the renamed digraph and the same answers. *)
Theorem C99_history (H1 H2 : HashIter) (f : N → N) (os : list edit_op) : Inj (=) (=) f →
  ∃ g1 g2 bs, @ed_run H1 ed_new os = Ok (g1, bs) ∧ @ed_run H2 ed_new (rename_op f <$> os) = Ok (g2, bs) ∧ drenames f g1 g2.
Proof.
  intros Hf. destruct (@C16_run_total H1 os) as (g1 & Hg1), (@C16_run_total H2 (rename_op f <$> os)) as (g2 & Hg2).
  destruct (@C16_queries H1 os g1 _ Hg1) as (_ & _ & _ & _ & V1 & A1 & _). destruct (@C16_queries H2 _ g2 _ Hg2) as (_ & _ & _ & _ & V2 & A2 & _).
  destruct (dren_run f Hf os _ _ (dren_empty f)) as [HR Hbs]. exists g1, g2, (d_run d_empty os).2. split; [done|]. split; [by rewrite Hg2, Hbs|].
  split_and!.
  - intros u v _ _. apply (inj f).
  - intros x. rewrite V2, (proj1 HR). by setoid_rewrite V1.
  - intros u v _ _. apply eq_true_iff_eq. rewrite A1, A2. by rewrite (dren_da f Hf _ _ _ _ HR).
Qed.
(** The digraph reached does not depend on the hash order. *)
Theorem C99_same_state (H1 H2 : HashIter) (os : list edit_op) : @ed_run H1 ed_new os = @ed_run H2 ed_new os.
Proof.
  destruct (@ed_run_rep H1 os _ _ ed_new_rep) as (g1 & -> & R1), (@ed_run_rep H2 os _ _ ed_new_rep) as (g2 & -> & R2).
  by rewrite (ed_rep_fun _ _ _ R1 R2).
Qed.

(** ** Queries *)
Theorem C99_counts (H1 H2 : HashIter) (f : N → N) g1 g2 : @ed_reachable H1 g1 → @ed_reachable H2 g2 → drenames f g1 g2 →
  ed_num_vertices g1 = ed_num_vertices g2 ∧ ed_num_edges g1 = ed_num_edges g2 ∧
  (∀ u, ed_contains g1 u = true → ed_in_degree g1 u = ed_in_degree g2 (f u) ∧ ed_out_degree g1 u = ed_out_degree g2 (f u) ∧
     ed_degree g1 u = ed_degree g2 (f u)) ∧
  ∃ l1 l2, @arcs (@ed_digraph H1 g1) = Ok l1 ∧ @arcs (@ed_digraph H2 g2) = Ok l2 ∧ l2 ≡ₚ (λ e, (f e.1, f e.2)) <$> l1.
Proof.
  intros W1%(@ed_reachable_wf H1) W2%(@ed_reachable_wf H2) HR.
  destruct (@arcs_spec H1 g1 W1) as (l1 & E1 & N1 & In1 & M1), (@arcs_spec H2 g2 W2) as (l2 & E2 & N2 & In2 & M2).
  assert (l2 ≡ₚ (λ e, (f e.1, f e.2)) <$> l1) as Hp.
  { apply NoDup_Permutation; [done| |].
    - apply NoDup_fmap_2_strong; [|done]. intros [u v] [u' v'] Hu%In1 Hv%In1. cbn. intros [= Ea Eb].
      destruct (darc_vtx g1 u v W1 Hu), (darc_vtx g1 u' v' W1 Hv). f_equal; by apply (dren_inj f g1 g2 HR).
    - intros [x y]. rewrite In2, (dren_arcs f g1 g2 W1 W2 HR), elem_of_list_fmap. split.
      + intros (u & v & Huv & -> & ->). exists (u, v). split; [done|]. by apply In1.
      + intros ([u v] & [= -> ->] & Huv%In1). by exists u, v. }
  assert (∀ u, ed_contains g1 u = true → ed_in_degree g1 u = ed_in_degree g2 (f u) ∧ ed_out_degree g1 u = ed_out_degree g2 (f u)) as Hd.
  { intros u Hu. pose proof (dren_vtx f g1 g2 HR u Hu) as Hfu. split.
    - destruct (@ed_in_neighbours_spec H1 g1 u W1 Hu) as (l & _ & Nl & Il & -> & _), (@ed_in_neighbours_spec H2 g2 (f u) W2 Hfu) as (k & _ & Nk & Ik & -> & _).
      f_equal. rewrite (dren_list f g1 g2 HR l k _ _ Nl Nk Il Ik); [by rewrite fmap_length| |].
      + intros v Hv. by apply (darc_vtx g1 v u W1).
      + intros x. rewrite (dren_arcs f g1 g2 W1 W2 HR). split.
        * intros (a & b & Hab & -> & Eb). exists a. split; [|done]. rewrite (dren_inj f g1 g2 HR u b Hu); [done| |done]. by apply (darc_vtx g1 a b W1).
        * intros (a & Ha & ->). by exists a, u.
    - destruct (@ed_out_neighbours_spec H1 g1 u W1 Hu) as (l & _ & Nl & Il & -> & _), (@ed_out_neighbours_spec H2 g2 (f u) W2 Hfu) as (k & _ & Nk & Ik & -> & _).
      f_equal. rewrite (dren_list f g1 g2 HR l k _ _ Nl Nk Il Ik); [by rewrite fmap_length| |].
      + intros v Hv. by apply (darc_vtx g1 u v W1).
      + intros x. rewrite (dren_arcs f g1 g2 W1 W2 HR). split.
        * intros (a & b & Hab & Ea & ->). exists b. split; [|done]. rewrite (dren_inj f g1 g2 HR u a Hu); [done| |done]. by apply (darc_vtx g1 a b W1).
        * intros (b & Hb & ->). by exists u, b. }
  split_and!.
  - pose proof (dren_list f g1 g2 HR (vertices (@ed_graph H1 g1)) (vertices (@ed_graph H2 g2)) (dvtx g1) (dvtx g2)) as Hv.
    rewrite (@ed_num_vertices_spec H1 g1), (@ed_num_vertices_spec H2 g2). rewrite Hv; [by rewrite fmap_length|..].
    + apply (@NoDup_hash_iter H1).
    + apply (@NoDup_hash_iter H2).
    + intros u. by apply (@ed_vertices H1).
    + intros u. by apply (@ed_vertices H2).
    + done.
    + apply HR.
  - rewrite <- M1, <- M2, Hp. by rewrite fmap_length.
  - intros u Hu. destruct (Hd u Hu) as [Hi Ho]. split; [done|]. split; [done|].
    pose proof (dren_vtx f g1 g2 HR u Hu) as Hfu.
    apply (proj2 (@ed_reachable_wf H1 g1)) in W1 as (os & bs & Hr). apply (proj2 (@ed_reachable_wf H2 g2)) in W2 as (os' & bs' & Hr').
    destruct (@C16_queries H1 os g1 bs Hr) as (_ & _ & _ & _ & C1 & _ & _ & Q1), (@C16_queries H2 os' g2 bs' Hr') as (_ & _ & _ & _ & C2 & _ & _ & Q2).
    destruct (Q1 u (proj1 (C1 u) Hu)) as (li & lo & _ & _ & _ & _ & _ & _ & _ & D1 & D2 & ->).
    destruct (Q2 (f u) (proj1 (C2 _) Hfu)) as (li' & lo' & _ & _ & _ & _ & _ & _ & _ & D3 & D4 & ->). rewrite D1, D3 in Hi. rewrite D2, D4 in Ho.
    injection Hi as ->. injection Ho as ->. done.
  - exists l1, l2. done.
Qed.

Theorem C99_degree_maps (H1 H2 : HashIter) (f : N → N) g1 g2 : @ed_reachable H1 g1 → @ed_reachable H2 g2 → drenames f g1 g2 →
  ∃ i1 o1 i2 o2, in_degrees (@ed_digraph H1 g1) = Ok i1 ∧ out_degrees (@ed_digraph H1 g1) = Ok o1 ∧
    in_degrees (@ed_digraph H2 g2) = Ok i2 ∧ out_degrees (@ed_digraph H2 g2) = Ok o2 ∧
    ∀ u, ed_contains g1 u = true → i2 !! f u = i1 !! u ∧ o2 !! f u = o1 !! u.
Proof.
  intros R1 R2 HR. destruct (C99_counts H1 H2 f g1 g2 R1 R2 HR) as (_ & _ & Hd & _).
  destruct (@C21_in_degrees H1 g1 R1) as (i1 & E1 & I1), (@C21_out_degrees H1 g1 R1) as (o1 & E2 & O1).
  destruct (@C21_in_degrees H2 g2 R2) as (i2 & E3 & I2), (@C21_out_degrees H2 g2 R2) as (o2 & E4 & O2).
  exists i1, o1, i2, o2. do 4 (split; [done|]). intros u Hu. destruct (Hd u Hu) as (Di & Do & _).
  apply (@ed_reachable_wf H1) in R1. apply (@ed_reachable_wf H2) in R2. pose proof (dren_vtx f g1 g2 HR u Hu) as Hfu. split.
  - destruct (@ed_in_neighbours_spec H1 g1 u R1 Hu) as (l & _ & Nl & Il & El & _), (@ed_in_neighbours_spec H2 g2 (f u) R2 Hfu) as (k & _ & Nk & Ik & Ek & _).
    rewrite El, Ek in Di. injection Di as Di. rewrite (proj2 (I1 u (length l))), (proj2 (I2 (f u) (length k))); [by rewrite Di| |].
    + split; [done|]. by exists k.
    + split; [done|]. by exists l.
  - destruct (@ed_out_neighbours_spec H1 g1 u R1 Hu) as (l & _ & Nl & Il & El & _), (@ed_out_neighbours_spec H2 g2 (f u) R2 Hfu) as (k & _ & Nk & Ik & Ek & _).
    rewrite El, Ek in Do. injection Do as Do. rewrite (proj2 (O1 u (length l))), (proj2 (O2 (f u) (length k))); [by rewrite Do| |].
    + split; [done|]. by exists k.
    + split; [done|]. by exists l.
Qed.

Theorem C99_neighbourhoods (H1 H2 : HashIter) (f : N → N) g1 g2 (X : list N) : @ed_reachable H1 g1 → @ed_reachable H2 g2 → drenames f g1 g2 →
  (∀ v, v ∈ X → ed_contains g1 v = true) →
  (∃ A, @in_neighbourhood H1 (@ed_digraph H1 g1) X = Ok A ∧ @in_neighbourhood H2 (@ed_digraph H2 g2) (f <$> X) = Ok (set_map f A)) ∧
  (∃ A, @out_neighbourhood H1 (@ed_digraph H1 g1) X = Ok A ∧ @out_neighbourhood H2 (@ed_digraph H2 g2) (f <$> X) = Ok (set_map f A)).
Proof.
  intros R1 R2 HR HX. pose proof (proj1 (@ed_reachable_wf H1 g1) R1) as W1. pose proof (proj1 (@ed_reachable_wf H2 g2) R2) as W2.
  assert (∀ v, v ∈ f <$> X → ed_contains g2 v = true) as HX2.
  { intros x (v & -> & Hv)%elem_of_list_fmap. by apply (dren_vtx f g1 g2 HR), HX. }
  assert (∀ u, dvtx g1 u → f u ∉ f <$> X ↔ u ∉ X) as Hin.
  { intros u Hu. rewrite elem_of_list_fmap. split; [intros Hn HuX; apply Hn; by exists u|]. intros Hn (v & E & Hv). apply Hn.
    rewrite (dren_inj f g1 g2 HR u v Hu (HX v Hv) E). done. }
  split.
  - destruct (@C21_in_neighbourhood H1 g1 X R1 HX) as (A & E1 & HA), (@C21_in_neighbourhood H2 g2 _ R2 HX2) as (B & E2 & HB).
    exists A. split; [done|]. rewrite E2. f_equal. apply set_eq. intros x. rewrite HB, elem_of_map. split.
    + intros (Hx & y & (v & -> & Hv)%elem_of_list_fmap & Hxy). apply (dren_arcs f g1 g2 W1 W2 HR) in Hxy as (a & b & Hab & -> & E).
      destruct (darc_vtx g1 a b W1 Hab) as [Va Vb]. exists a. split; [done|]. apply HA. split; [by apply Hin|]. exists v. split; [done|].
      rewrite (dren_inj f g1 g2 HR v b (HX v Hv) Vb E). done.
    + intros (a & -> & (Ha & v & Hv & Hav)%HA). destruct (darc_vtx g1 a v W1 Hav) as [Va Vv]. split; [by apply Hin|].
      exists (f v). split; [apply elem_of_list_fmap; by exists v|]. apply (dren_arcs f g1 g2 W1 W2 HR). by exists a, v.
  - destruct (@C21_out_neighbourhood H1 g1 X R1 HX) as (A & E1 & HA), (@C21_out_neighbourhood H2 g2 _ R2 HX2) as (B & E2 & HB).
    exists A. split; [done|]. rewrite E2. f_equal. apply set_eq. intros x. rewrite HB, elem_of_map. split.
    + intros (Hx & y & (v & -> & Hv)%elem_of_list_fmap & Hxy). apply (dren_arcs f g1 g2 W1 W2 HR) in Hxy as (a & b & Hab & E & ->).
      destruct (darc_vtx g1 a b W1 Hab) as [Va Vb]. exists b. split; [done|]. apply HA. split; [by apply Hin|]. exists v. split; [done|].
      rewrite (dren_inj f g1 g2 HR v a (HX v Hv) Va E). done.
    + intros (a & -> & (Ha & v & Hv & Hav)%HA). destruct (darc_vtx g1 v a W1 Hav) as [Vv Va]. split; [by apply Hin|].
      exists (f v). split; [apply elem_of_list_fmap; by exists v|]. apply (dren_arcs f g1 g2 W1 W2 HR). by exists v, a.
Qed.

(** ** Bulk edits *)
Lemma dren_size (f : N → N) g1 g2 (X Y : gset N) (P Q : N → Prop) : drenames f g1 g2 → (∀ x, x ∈ X ↔ P x) → (∀ x, x ∈ Y ↔ Q x) →
  (∀ u, P u → dvtx g1 u) → (∀ x, Q x ↔ ∃ u, P u ∧ x = f u) → size X = size Y.
Proof.
  intros HR HX HY HP HQ. pose proof (dren_list f g1 g2 HR (elements X) (elements Y) P Q (NoDup_elements X) (NoDup_elements Y)) as Hp.
  unfold size, set_size. cbn. rewrite Hp; [by rewrite fmap_length| | |done|done]; intros u; rewrite elem_of_elements; [apply HX|apply HY].
Qed.

Theorem C99_bulk (H1 H2 : HashIter) (f : N → N) g1 g2 : @ed_reachable H1 g1 → @ed_reachable H2 g2 → drenames f g1 g2 →
  (∃ h1 h2 k, @ed_remove_loops H1 g1 = Ok (h1, k) ∧ @ed_remove_loops H2 g2 = Ok (h2, k) ∧ drenames f h1 h2) ∧
  (∃ h1 h2 k, @ed_remove_isolates H1 g1 = Ok (h1, k) ∧ @ed_remove_isolates H2 g2 = Ok (h2, k) ∧ drenames f h1 h2).
Proof.
  intros R1 R2 HR. pose proof (proj1 (@ed_reachable_wf H1 g1) R1) as W1. pose proof (proj1 (@ed_reachable_wf H2 g2) R2) as W2.
  pose proof (dren_inj f g1 g2 HR) as Hi. pose proof (dren_arcs f g1 g2 W1 W2 HR) as Ha. split.
  - destruct (@C67_remove_loops H1 g1 R1) as (h1 & k1 & E1 & _ & V1 & A1 & X & HX & ->), (@C67_remove_loops H2 g2 R2) as (h2 & k2 & E2 & _ & V2 & A2 & Y & HY & ->).
    exists h1, h2, (size X). split; [done|]. split.
    + rewrite E2. do 2 f_equal. symmetry. apply (dren_size f g1 g2 X Y _ _ HR HX HY).
      * intros u Hu. by apply (darc_vtx g1 u u W1).
      * intros x. unfold darc in Ha. rewrite Ha. split.
        -- intros (u & v & Huv & -> & E). destruct (darc_vtx g1 u v W1 Huv) as [Hu Hv]. exists u. split; [|done]. by rewrite (Hi u v Hu Hv E) in Huv |- *.
        -- intros (u & Hu & ->). by exists u, u.
    + split_and!.
      * intros u v Hu%V1 Hv%V1. by apply Hi.
      * intros x. rewrite V2. setoid_rewrite V1. apply HR.
      * intros u v Hu%V1 Hv%V1. apply eq_true_iff_eq. rewrite A1, A2. rewrite <- (proj2 (proj2 HR) u v Hu Hv).
        split; intros [? Hn]; (split; [done|]); [intros E; by apply Hn, Hi|by intros ->].
  - destruct (@C67_remove_isolates H1 g1 R1) as (h1 & k1 & E1 & _ & V1 & A1 & X & HX & ->), (@C67_remove_isolates H2 g2 R2) as (h2 & k2 & E2 & _ & V2 & A2 & Y & HY & ->).
    assert (∀ u, dvtx g1 u → (∃ y, darc g2 (f u) y ∨ darc g2 y (f u)) ↔ ∃ v, darc g1 u v ∨ darc g1 v u) as Hiso.
    { intros u Hu. split.
      - intros (y & [(a & b & Hab & E & ->)%Ha|(a & b & Hab & -> & E)%Ha]); destruct (darc_vtx g1 a b W1 Hab) as [Va Vb].
        + exists b. left. by rewrite (Hi u a Hu Va E).
        + exists a. right. by rewrite (Hi u b Hu Vb E).
      - intros (v & [Huv|Huv]); exists (f v); [left|right]; apply Ha; [by exists u, v|by exists v, u]. }
    exists h1, h2, (size X). split; [done|]. split.
    + rewrite E2. do 2 f_equal. symmetry. apply (dren_size f g1 g2 X Y _ _ HR HX HY).
      * intros u Hu. apply Hu.
      * intros x. split.
        -- intros [Hx Hn]. apply HR in Hx as (u & Hu & ->). exists u. split; [|done]. split; [done|]. intros y. split; intros Hy.
           ++ destruct (proj2 (Hiso u Hu) (ex_intro _ y (or_introl Hy))) as (z & [Hz|Hz]); [exact (proj1 (Hn z) Hz)|exact (proj2 (Hn z) Hz)].
           ++ destruct (proj2 (Hiso u Hu) (ex_intro _ y (or_intror Hy))) as (z & [Hz|Hz]); [exact (proj1 (Hn z) Hz)|exact (proj2 (Hn z) Hz)].
        -- intros (u & [Hu Hn] & ->). split; [by apply (dren_vtx f g1 g2 HR)|]. intros y. split; intros Hy.
           ++ destruct (proj1 (Hiso u Hu) (ex_intro _ y (or_introl Hy))) as (z & [Hz|Hz]); [exact (proj1 (Hn z) Hz)|exact (proj2 (Hn z) Hz)].
           ++ destruct (proj1 (Hiso u Hu) (ex_intro _ y (or_intror Hy))) as (z & [Hz|Hz]); [exact (proj1 (Hn z) Hz)|exact (proj2 (Hn z) Hz)].
    + split_and!.
      * intros u v [Hu _]%V1 [Hv _]%V1. by apply Hi.
      * intros x. rewrite V2. split.
        -- intros [Hx Hy]. apply HR in Hx as (u & Hu & ->). exists u. split; [|done]. apply V1. split; [done|]. by apply (Hiso u Hu).
        -- intros (u & [Hu Hy]%V1 & ->). split; [by apply (dren_vtx f g1 g2 HR)|]. by apply (Hiso u Hu).
      * intros u v [Hu _]%V1 [Hv _]%V1. apply eq_true_iff_eq. rewrite A1, A2. by rewrite <- (proj2 (proj2 HR) u v Hu Hv).
Qed.

(** ** The undirected functions *)
Lemma dren_underlying (H1 H2 : HashIter) (f : N → N) g1 g2 e1 e2 : drenames f g1 g2 → @underlying H1 g1 e1 → @underlying H2 g2 e2 →
  renames f (@eg_graph H1 e1) (@eg_graph H2 e2).
Proof.
  intros (Hi & Hv & Ha) (_ & V1 & A1) (_ & V2 & A2). split_and!; cbn.
  - intros u v. rewrite !V1. apply Hi.
  - intros x. rewrite V2. setoid_rewrite V1. apply Hv.
  - intros u v. rewrite !V1. intros Hu Hw. rewrite A1, A2. by rewrite !Ha.
Qed.

Theorem C99_undirected (H1 H2 : HashIter) (f : N → N) g1 g2 : @ed_reachable H1 g1 → @ed_reachable H2 g2 → drenames f g1 g2 →
  (∃ cs1 cs2 : list (gset N), @components H1 (@ed_graph H1 g1) = Ok cs1 ∧ @components H2 (@ed_graph H2 g2) = Ok cs2 ∧ cs2 ≡ₚ set_map f <$> cs1) ∧
  ((∃ L R, @is_bipartite H1 (@ed_graph H1 g1) = Ok (Bipartition L R)) ↔ ∃ L R, @is_bipartite H2 (@ed_graph H2 g2) = Ok (Bipartition L R)) ∧
  (∀ X, (∀ v, v ∈ X → ed_contains g1 v = true) →
    (∃ A, @neighbourhood H1 (@ed_graph H1 g1) X = Ok A ∧ @neighbourhood H2 (@ed_graph H2 g2) (f <$> X) = Ok (set_map f A)) ∧
    (∃ A, closed_neighbourhood (@ed_graph H1 g1) X = Ok A ∧ closed_neighbourhood (@ed_graph H2 g2) (f <$> X) = Ok (set_map f A)) ∧
    (∀ r, ∃ A, @r_neighbourhood H1 (@ed_graph H1 g1) X r = Ok A ∧ @r_neighbourhood H2 (@ed_graph H2 g2) (f <$> X) r = Ok (set_map f A)) ∧
    ∃ h1 h2, @subgraph H1 (@ed_graph H1 g1) X = Ok h1 ∧ @subgraph H2 (@ed_graph H2 g2) (f <$> X) = Ok h2 ∧
      renames f (@eg_graph H1 h1) (@eg_graph H2 h2)).
Proof.
  intros R1 R2 HR. destruct (@C94_underlying H1 g1 R1) as (e1 & U1 & _), (@C94_underlying H2 g2 R2) as (e2 & U2 & _).
  pose proof (dren_underlying H1 H2 f g1 g2 e1 e2 HR U1 U2) as Hren.
  pose proof (@C10_reachable_wf H1 e1 (proj1 U1)) as G1. pose proof (@C10_reachable_wf H2 e2 (proj1 U2)) as G2.
  split; [|split].
  - rewrite (@C94_components H1 g1 e1 R1 U1), (@C94_components H2 g2 e2 R2 U2). by apply C90_components.
  - rewrite (@C94_same_verdict H1 g1 e1 R1 U1), (@C94_same_verdict H2 g2 e2 R2 U2).
    destruct (C90_bipartite H1 H2 f _ _ G1 G2 Hren) as [(L & R & L' & R' & E1 & E2)|(c & c' & E1 & E2)]; rewrite E1, E2; split; intros (? & ? & ?); eauto; done.
  - intros X HX. destruct (@C94_neighbourhoods H1 g1 e1 X R1 U1) as (-> & -> & Er1 & ->).
    destruct (@C94_neighbourhoods H2 g2 e2 (f <$> X) R2 U2) as (-> & -> & Er2 & ->).
    assert (∀ v, v ∈ X → contains (@eg_graph H1 e1) v = true) as HX' by (intros v Hv; cbn; rewrite (proj1 (proj2 U1)); by apply HX).
    destruct (C90_neighbourhoods H1 H2 f _ _ X G1 G2 Hren HX') as (N1 & N2 & N3). split; [exact N1|]. split; [exact N2|]. split.
    + intros r. rewrite Er1, Er2. apply N3.
    + by apply C90_subgraph.
Qed.

(** ** normalize *)
(** An increasing enumeration of a set is unique. *)
Lemma enum_unique (n : N) (m m' : gmap N N) : (∀ i, is_Some (m !! i) ↔ (i < n)%N) → (∀ i, is_Some (m' !! i) ↔ (i < n)%N) →
  (∀ i j u v, m !! i = Some u → m !! j = Some v → (i < j)%N → (u < v)%N) → (∀ i j u v, m' !! i = Some u → m' !! j = Some v → (i < j)%N → (u < v)%N) →
  (∀ u, (∃ i, m !! i = Some u) ↔ ∃ i, m' !! i = Some u) → m = m'.
Proof.
  intros D1 D2 M1 M2 Him. apply map_eq. intros i. induction (N.lt_wf_0 i) as [i _ IH].
  destruct (m !! i) as [u|] eqn:E1.
  - assert (is_Some (m' !! i)) as [u' E2] by (apply D2, D1; eauto). rewrite E2. f_equal.
    destruct (N.lt_trichotomy u u') as [Hlt|[->|Hlt]]; [exfalso|done|exfalso].
    + destruct (proj1 (Him u)) as [j Ej]; [eauto|]. destruct (N.lt_trichotomy j i) as [Hj|[->|Hj]].
      * rewrite <- (IH j Hj) in Ej. pose proof (M1 j i u u Ej E1 Hj). lia.
      * rewrite E2 in Ej. injection Ej as ->. lia.
      * pose proof (M2 i j u' u E2 Ej Hj). lia.
    + destruct (proj2 (Him u')) as [j Ej]; [eauto|]. destruct (N.lt_trichotomy j i) as [Hj|[->|Hj]].
      * rewrite (IH j Hj) in Ej. pose proof (M2 j i u' u' Ej E2 Hj). lia.
      * rewrite E1 in Ej. injection Ej as ->. lia.
      * pose proof (M1 i j u u' E1 Ej Hj). lia.
  - destruct (m' !! i) as [u'|] eqn:E2; [|done]. assert (is_Some (m !! i)) as [? ?] by (apply D1, D2; eauto). congruence.
Qed.
(** A renaming that keeps the order of the labels does not change the result, and neither does the hash order. *)
Theorem C99_normalize (H1 H2 : HashIter) (f : N → N) g1 g2 : @ed_reachable H1 g1 → @ed_reachable H2 g2 → drenames f g1 g2 →
  (∀ u v, ed_contains g1 u = true → ed_contains g1 v = true → (u < v)%N → (f u < f v)%N) →
  ∃ h m, @ed_normalize H1 g1 = Ok (h, m) ∧ @ed_normalize H2 g2 = Ok (h, f <$> m).
Proof.
  intros R1 R2 HR Hf. pose proof (proj1 (@ed_reachable_wf H1 g1) R1) as W1. pose proof (proj1 (@ed_reachable_wf H2 g2) R2) as W2.
  destruct (C99_counts H1 H2 f g1 g2 R1 R2 HR) as (Hn & _).
  destruct (@C19_normalize_exact H1 g1 R1) as (h1 & m1 & E1 & Rh1 & D1 & I1 & M1 & V1 & A1).
  destruct (@C19_normalize_exact H2 g2 R2) as (h2 & m2 & E2 & Rh2 & D2 & I2 & M2 & V2 & A2).
  assert (∀ i u, m1 !! i = Some u → dvtx g1 u) as Hv by (intros i u Hu; apply I1; eauto).
  assert (f <$> m1 = m2) as Hm.
  { apply (enum_unique (N.of_nat (ed_num_vertices g1))).
    - intros i. rewrite lookup_fmap, fmap_is_Some. apply D1.
    - intros i. rewrite Hn. apply D2.
    - intros i j u v. rewrite !lookup_fmap, !fmap_Some. intros (a & Ea & ->) (b & Eb & ->) Hij. apply Hf; [by eapply Hv..|]. by eapply M1.
    - exact M2.
    - intros x. rewrite <- I2. rewrite (proj1 (proj2 HR)). setoid_rewrite lookup_fmap. setoid_rewrite fmap_Some. split.
      + intros (i & u & Hu & ->). exists u. split; [by eapply Hv|done].
      + intros (u & Hu & ->). apply I1 in Hu as [i Hi]. by exists i, u. }
  exists h1, m1. split; [done|]. rewrite E2, Hm. do 2 f_equal.
  apply (@ed_reachable_wf H1) in Rh1. apply (@ed_reachable_wf H2) in Rh2. apply (ed_wf_ext h2 h1 Rh2 Rh1); unfold dvtx, darc.
  - intros i. by rewrite V1, V2, Hn.
  - assert (∀ u v, dvtx g1 u → dvtx g1 v → (u ≤ v)%N ↔ (f u ≤ f v)%N) as Hle.
    { intros u v Hu Hw. split; intros Hl.
      - destruct (decide (u = v)) as [->|]; [lia|]. apply N.lt_le_incl, Hf; [done..|lia].
      - destruct (decide (v < u)%N) as [Hlt|]; [|lia]. pose proof (Hf v u Hw Hu Hlt). lia. }
    intros i j. rewrite A1, A2, <- Hm. setoid_rewrite lookup_fmap. setoid_rewrite fmap_Some. split.
    + intros (x & y & (u & Eu & ->) & (v & Ev & ->) & Hl & Ha). exists u, v. split; [done|]. split; [done|].
      split; [by apply (Hle u v (Hv _ _ Eu) (Hv _ _ Ev))|]. rewrite !(proj2 (proj2 HR)) by (by eapply Hv). done.
    + intros (u & v & Eu & Ev & Hl & Ha). exists (f u), (f v). split; [by exists u|]. split; [by exists v|].
      split; [by apply (Hle u v (Hv _ _ Eu) (Hv _ _ Ev))|]. rewrite <- !(proj2 (proj2 HR)) by (by eapply Hv). done.
Qed.

(** ** What does depend on the labels *)
(** [normalize] of a digraph and of the same digraph with two labels exchanged are different digraphs under every
    renaming. *)
Definition swap01 (x : N) : N := if decide (x = 0)%N then 1%N else if decide (x = 1)%N then 0%N else x.
#[local] Existing Instance std_iter.
Definition ex_path_d : editdigraph := ex_arcs [(0, 1); (1, 2)]%N.
Definition ex_path_d' : editdigraph := ex_arcs [(1, 0); (0, 2)]%N.
Definition ex_norm (g : editdigraph) : editdigraph := match ed_normalize g with Ok (h, _) => h | _ => ed_new end.
Lemma ed_contains_in h x : ed_contains h x = true → x ∈ (map_to_list (ed_out h)).*1.
Proof.
  unfold ed_contains. destruct (ed_out h !! x) as [X|] eqn:E; [|done]. intros _. apply elem_of_list_fmap. exists (x, X).
  split; [done|]. by apply elem_of_map_to_list.
Qed.
(** What [drenames] says of two concrete digraphs can be computed. *)
Definition drenames_b (f : N → N) (g1 g2 : editdigraph) : bool :=
  let V1 := (map_to_list (ed_out g1)).*1 in let V2 := (map_to_list (ed_out g2)).*1 in
  forallb (λ u, ed_contains g2 (f u)) V1 && forallb (λ x, existsb (λ u, bool_decide (x = f u)) V1) V2 &&
  forallb (λ u, forallb (λ v, implb (bool_decide (f u = f v)) (bool_decide (u = v)) && Bool.eqb (ed_has_arc g1 u v) (ed_has_arc g2 (f u) (f v))) V1) V1.
Lemma drenames_b_spec f g1 g2 : drenames_b f g1 g2 = true → drenames f g1 g2.
Proof.
  unfold drenames_b. rewrite !andb_true_iff, !forallb_forall. intros [[Ha Hb] Hc].
  assert (∀ u, ed_contains g1 u = true → In u (map_to_list (ed_out g1)).*1) as H1.
  { intros u Hu. by apply elem_of_list_In, ed_contains_in. }
  assert (∀ u v, ed_contains g1 u = true → ed_contains g1 v = true → implb (bool_decide (f u = f v)) (bool_decide (u = v)) = true ∧ ed_has_arc g1 u v = ed_has_arc g2 (f u) (f v)) as Hd.
  { intros u v Hu Hv. specialize (Hc u (H1 u Hu)). rewrite forallb_forall in Hc. specialize (Hc v (H1 v Hv)).
    apply andb_true_iff in Hc as [H E]. split; [done|]. by apply eqb_prop. }
  split_and!.
  - intros u v Hu Hv E. destruct (Hd u v Hu Hv) as [Hi _]. rewrite (bool_decide_eq_true_2 _ E) in Hi. cbn in Hi. by apply bool_decide_eq_true in Hi.
  - intros x. split.
    + intros Hx. pose proof (Hb x) as Hx'. rewrite existsb_exists in Hx'. destruct Hx' as (u & Hu & E%bool_decide_eq_true);
        [by apply elem_of_list_In, ed_contains_in|]. exists u. split; [|done].
      apply elem_of_list_In, elem_of_list_fmap in Hu as ([u' X] & -> & Hu%elem_of_map_to_list). unfold ed_contains. cbn. by rewrite Hu.
    + intros (u & Hu & ->). by apply Ha, H1.
  - intros u v Hu Hv. by apply Hd.
Qed.
Lemma ex_norm_path : ∀ k : N → N, ¬ drenames k (ex_norm ex_path_d) (ex_norm ex_path_d').
Proof.
  intros k (Hi & Hv & Ha).
  assert (∀ x, ed_contains (ex_norm ex_path_d) x = true → k x = 0 ∨ k x = 1 ∨ k x = 2)%N as Hk.
  { intros x Hx. pose proof (proj2 (Hv (k x)) (ex_intro _ x (conj Hx eq_refl))) as Hy. apply ed_contains_in in Hy.
    assert ((map_to_list (ed_out (ex_norm ex_path_d'))).*1 = [0; 1; 2]%N) as Hs by (by vm_compute).
    rewrite Hs in Hy. clear -Hy. rewrite !elem_of_cons, elem_of_nil in Hy. tauto. }
  assert (ed_contains (ex_norm ex_path_d) 0 = true)%N as C0 by (by vm_compute).
  assert (ed_contains (ex_norm ex_path_d) 1 = true)%N as C1 by (by vm_compute).
  assert (ed_contains (ex_norm ex_path_d) 2 = true)%N as C2 by (by vm_compute).
  pose proof (Ha 0%N 1%N C0 C1) as A1. pose proof (Ha 1%N 2%N C1 C2) as A2.
  apply Hk in C0, C1, C2.
  clear Hi Hv Ha Hk. revert A1 A2. destruct C0 as [->|[->| ->]], C1 as [->|[->| ->]], C2 as [->|[->| ->]]; vm_compute; discriminate.
Qed.
Lemma ex_norm_ok es : ∃ m, ed_normalize (ex_arcs es) = Ok (ex_norm (ex_arcs es), m).
Proof.
  destruct (C19_normalize_exact (ex_arcs es) (ex_arcs_reachable es)) as (h & m & E & _). exists m. unfold ex_norm. by rewrite E.
Qed.
Theorem C99_normalize_other : ∃ f g1 g2, ed_reachable g1 ∧ ed_reachable g2 ∧ drenames f g1 g2 ∧
  ∃ h1 m1 h2 m2, ed_normalize g1 = Ok (h1, m1) ∧ ed_normalize g2 = Ok (h2, m2) ∧ ∀ k, ¬ drenames k h1 h2.
Proof.
  exists swap01, ex_path_d, ex_path_d'. split; [apply ex_arcs_reachable|]. split; [apply ex_arcs_reachable|].
  split; [apply drenames_b_spec; by vm_compute|].
  destruct (ex_norm_ok [(0, 1); (1, 2)]%N) as [m1 E1], (ex_norm_ok [(1, 0); (0, 2)]%N) as [m2 E2].
  exists (ex_norm ex_path_d), m1, (ex_norm ex_path_d'), m2. split; [exact E1|]. split; [exact E2|]. exact ex_norm_path.
Qed.

(** ** Concrete cases *)
Definition ex_di_shift : editdigraph := ex_arcs [(16, 15); (10, 11); (12, 10); (11, 10); (13, 14); (11, 12)]%N.
(** The digraph [ex_di], built again in another order with 10 added to every label. *)
Example C99_ex_renames : ed_reachable ex_di ∧ ed_reachable ex_di_shift ∧ drenames (N.add 10) ex_di ex_di_shift.
Proof. split_and!; [apply ex_arcs_reachable..|]. apply drenames_b_spec. by vm_compute. Qed.
Example C99_ex_counts : ed_num_edges ex_di = 6 ∧ ed_num_edges ex_di_shift = 6 ∧
  map (ed_in_degree ex_di) [0; 1; 2]%N = [Ok 2; Ok 1; Ok 1] ∧ map (ed_in_degree ex_di_shift) [10; 11; 12]%N = [Ok 2; Ok 1; Ok 1] ∧
  (X ← @out_neighbourhood std_iter (ed_digraph ex_di) [1; 2]%N; Ok (elements X)) = Ok [0]%N ∧
  (X ← @out_neighbourhood std_iter (ed_digraph ex_di_shift) [11; 12]%N; Ok (elements X)) = Ok [10]%N.
Proof. vm_compute. split_and!; reflexivity. Qed.
Example C99_ex_undirected :
  (cs ← components (ed_graph ex_di); Ok (map elements cs)) = Ok [[3; 4]; [5; 6]; [0; 1; 2]]%N ∧
  (X ← @r_neighbourhood std_iter (ed_graph ex_di_shift) [12]%N 1; Ok (elements X)) = Ok [11; 12; 10]%N.
Proof. vm_compute. split_and!; reflexivity. Qed.
Definition ex_di_loops : editdigraph := ex_arcs [(0, 0); (0, 1); (2, 2)]%N.
Definition ex_di_loops_shift : editdigraph := ex_arcs [(8, 8); (6, 6); (6, 7)]%N.
Example C99_ex_bulk : drenames (N.add 6) ex_di_loops ex_di_loops_shift ∧
  (r ← ed_remove_loops ex_di_loops; Ok r.2) = Ok 2 ∧ (r ← ed_remove_loops ex_di_loops_shift; Ok r.2) = Ok 2 ∧
  (r ← ed_remove_loops ex_di_loops; r' ← ed_remove_isolates r.1; Ok r'.2) = Ok 1.
Proof. split; [apply drenames_b_spec; by vm_compute|]. vm_compute. split_and!; reflexivity. Qed.
Example C99_ex_normalize : drenames (N.add 10) ex_di ex_di_shift ∧ (∀ u v, (u < v)%N → (10 + u < 10 + v)%N) ∧
  (r ← ed_normalize ex_di; Ok (map (λ e : N * N, ed_has_arc r.1 e.1 e.2) [(0, 1); (1, 0); (0, 2); (5, 6)]%N, r.2 !! 3%N)) =
    Ok ([true; false; true; true], Some 3%N) ∧
  (r ← ed_normalize ex_di_shift; Ok (map (λ e : N * N, ed_has_arc r.1 e.1 e.2) [(0, 1); (1, 0); (0, 2); (5, 6)]%N, r.2 !! 3%N)) =
    Ok ([true; false; true; true], Some 13%N).
Proof. split; [apply C99_ex_renames|]. split; [lia|]. vm_compute. split_and!; reflexivity. Qed.

Print Assumptions C99_history.
Print Assumptions C99_same_state.
Print Assumptions C99_counts.
Print Assumptions C99_degree_maps.
Print Assumptions C99_neighbourhoods.
Print Assumptions C99_bulk.
Print Assumptions C99_undirected.
Print Assumptions C99_normalize.
Print Assumptions C99_normalize_other.
