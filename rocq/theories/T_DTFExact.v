(** Property C54, conditions under which [small_distance] is exact. *)
From Verif Require Import Base Spec M_Graph M_Iterators M_EditGraph M_Algorithms M_Operations M_OrdGraph M_DTF
  S_Graph S_DTF P_EditGraph P_EditGraph2 P_Graph P_DTF P_DTF2 P_DTF3 P_DTF4 P_DTF6 P_Generators T_EditGraph T_Algorithms T_DTF Examples.

Section with_iter.
Context `{HI : HashIter}.

(** The documented claim: every distance up to the depth is returned, and nothing else. *)
Definition sd_exact (G : graph) (g : dtfgraph) : Prop :=
  ∀ u v, contains G u = true → contains G v = true → u ≠ v →
    ∃ o, df_small_distance g u v = Ok o ∧ ∀ d, o = Some d ↔ is_dist (adj G) d u v ∧ d ≤ df_depth g.

Lemma sd_exact_intro G g : graph_wf G → loopless G → dtf_reach G g →
  (∀ u v n, u ≠ v → nsteps (adj G) n u v → n ≤ df_depth g → ∃ d, d ≤ n ∧ sd_cand g u v d) → sd_exact G g.
Proof.
  intros HG Hl Hr Hex u v Hu Hv Hne. destruct (reach_closed G g HG Hl Hr) as (Hinv & _).
  destruct (C53_small_distance G g u v HG Hl (reach_reach_layer G g Hr) Hu Hv) as (o & Ho & Hod). exists o. split; [done|].
  assert (∀ n, nsteps (adj G) n u v → n ≤ df_depth g → ∃ d, d ≤ n ∧ o = Some d) as Hup.
  { intros n Hn Hle. destruct (Hex u v n Hne Hn Hle) as (d & Hd & Hc).
    destruct (small_distance_raw g u v (ai_wf G g Hinv) (ai_disj G g Hinv)) as (o' & Ho' & Hok); [by apply (ai_vtx G g Hinv)..|].
    destruct o' as [d'|]; [|by destruct (Ho' d)]. destruct Ho' as [_ Hmin]. specialize (Hmin d Hc).
    rewrite (proj2 (Nat.ltb_ge _ _)) in Hok by lia. exists d'. split; [lia|congruence]. }
  intros d. split.
  - intros ->. destruct (Hod d eq_refl) as [Hd (n & Hn & Hs)]. destruct (Hup n Hs) as (d' & Hd' & [= <-]); [lia|].
    assert (n = d) as -> by lia. split; [|lia]. split; [done|]. intros n Hs'. destruct (decide (n ≤ df_depth g)) as [Hle|]; [|lia].
    by destruct (Hup n Hs' Hle) as (d' & ? & [= <-]).
  - intros [[Hs Hmin] Hle]. destruct (Hup d Hs Hle) as (d' & Hd' & ->). destruct (Hod d' eq_refl) as [_ (n & Hn & Hs'%Hmin)]. f_equal. lia.
Qed.

(** The claim holds if no fraternal pair with an arc of weight 1 was lost. *)
Theorem C54_closed_partial (G : graph) (g : dtfgraph) : graph_wf G → loopless G → dtf_reach G g →
  (∀ x y z w, harc g 1 x y → harc g w z y → x ≠ z → w + 1 ≤ df_depth g → ∃ w', w' ≤ w + 1 ∧ (harc g w' x z ∨ harc g w' z x)) →
  sd_exact G g.
Proof.
  intros HG Hl Hr Hfrat. apply sd_exact_intro; [done|done|done|]. destruct (reach_closed G g HG Hl Hr) as (Hinv & Hb & Ht).
  assert (∀ x y z j, arc g 0 x y → arc g j z y → x ≠ z → j + 2 ≤ df_depth g → ∃ k, k ≤ j + 1 ∧ (arc g k x z ∨ arc g k z x)) as HF.
  { intros x y z j H1 H2 Hne Hle. destruct (Hfrat x y z (S j)) as (w & Hw & Ha); [by apply harc_S..|done|lia|].
    destruct Ha as [(k & -> & Ha)%harc_arc|(k & -> & Ha)%harc_arc]; exists k; split; auto with lia. }
  assert (∀ x y, adj G x y → arc g 0 x y ∨ arc g 0 y x) as Hedge.
  { intros x y Hxy. destruct (C54_small_values_partial G g x y HG Hl (reach_reach_layer G g Hr)) as [H1 _]; [by eapply wf_adj_vtx|eapply wf_adj_vtx; [done|by apply wf_adj_sym]|].
    apply H1 in Hxy as Hsd. destruct (small_distance_raw g x y (ai_wf G g Hinv) (ai_disj G g Hinv)) as (o & Ho & Hok).
    { apply (ai_vtx G g Hinv). by eapply wf_adj_vtx. } { apply (ai_vtx G g Hinv). eapply wf_adj_vtx; [done|by apply wf_adj_sym]. }
    rewrite Hsd in Hok. destruct o as [d|]; [|done]. destruct (df_depth g <? d); [done|]. injection Hok as <-. destruct Ho as [Hc _].
    destruct Hc as [(i & [= <-] & Ha)|(i & j & z & ? & _)]; [done|lia]. }
  intros u v n Hne Hn. revert v Hne Hn. induction n as [|n IH]; intros v Hne Hn Hle; [by inversion Hn|].
  apply nsteps_inv_r in Hn as (u' & Hn & He%Hedge).
  destruct (decide (u = u')) as [->|Hu'].
  { exists 1. split; [lia|]. left. exists 0. tauto. }
  destruct (IH u' Hu' Hn) as (d & Hd & Hc); [lia|].
  destruct Hc as [(i & -> & [Ha|Ha])|(i & j & x & -> & Hi & Hj & Hxu & Hxu')]; destruct He as [He|He].
  - destruct (Ht i 0 u u' v) as (k & Hk & Hak); [lia|done|done|done|]. exists (S k). split; [lia|]. left. eauto.
  - destruct (HF v u' u i He Ha) as (k & Hk & Hak); [done|lia|]. exists (S k). split; [lia|]. left. exists k. tauto.
  - exists (S i + 1). split; [lia|]. right. exists i, 0, u'. split_and!; [lia|lia|lia|done|done].
  - destruct (Ht 0 i v u' u) as (k & Hk & Hak); [lia|done|done|done|]. exists (S k). split; [lia|]. left. eauto.
  - destruct (decide (x = v)) as [->|Hxv]; [exists (S i); split; [lia|]; left; eauto|].
    destruct (Ht j 0 x u' v) as (k & Hk & Hak); [lia|done|done|done|]. exists (S i + S k). split; [lia|]. right. exists i, k, x. split_and!; [done|lia|lia|done|done].
  - destruct (decide (x = v)) as [->|Hxv]; [exists (S i); split; [lia|]; left; eauto|].
    destruct (HF v u' x j He Hxu') as (k & Hk & [Hak|Hak]); [done|lia| |].
    + destruct (Ht k i v x u) as (l & Hkl & Hal); [lia|done|done|done|]. exists (S l). split; [lia|]. left. eauto.
    + exists (S i + S k). split; [lia|]. right. exists i, k, x. split_and!; [done|lia|lia|done|done].
Qed.

(** It holds at every depth if the in-neighbourhoods of the orientation are cliques: then two connected vertices
    are joined by descending paths from a common vertex. *)
Theorem C54_cliques_partial (G : graph) (g : dtfgraph) : graph_wf G → loopless G → dtf_reach G g →
  (∀ x y z, harc g 1 x y → harc g 1 z y → x ≠ z → adj G x z) → sd_exact G g.
Proof.
  intros HG Hl Hr Hclique. apply sd_exact_intro; [done|done|done|]. destruct (reach_closed G g HG Hl Hr) as (Hinv & Hb & Ht).
  destruct (reach_layer_inv G g HG Hl (reach_reach_layer G g Hr)) as [_ (g0 & Hg0 & Ha0)].
  destruct (orient_spec G HG Hl) as (g' & lo & up & order & core & Hg' & _ & _ & _ & _ & Hnd & Hel & _ & Ha). assert (g' = g0) as -> by congruence. clear Hg'.
  assert (∀ u v, arc g 0 u v → before order u v) as Hord. { intros p q Hpq. rewrite Ha0, Ha in Hpq. tauto. }
  assert (∀ x y, adj G x y → arc g 0 x y ∨ arc g 0 y x) as Hedge.
  { intros x y Hxy. rewrite !Ha0, !Ha. assert (adj G y x) as Hyx by by apply wf_adj_sym.
    assert (x ∈ order) as Hx by (apply Hel; by eapply wf_adj_vtx). assert (y ∈ order) as Hy by (apply Hel; by eapply wf_adj_vtx).
    apply elem_of_list_lookup in Hx as [i Hi], Hy as [j Hj]. destruct (Nat.lt_trichotomy i j) as [?|[->|?]].
    - left. split_and!; [done|done|by exists i, j].
    - rewrite Hi in Hj. injection Hj as ->. by destruct (Hl y).
    - right. split_and!; [done|done|by exists j, i]. }
  assert (∀ k x y z, desc g k x y → arc g 0 y z → desc g (S k) x z) as Hsnoc.
  { intros k. induction k as [|k IH]; intros x y z; cbn; [intros -> ?; eauto|]. intros (w & Hw & Hd) Hyz. exists w. split; [done|]. by eapply IH. }
  assert (∀ k x z, desc g (S k) x z → ∃ y, desc g k x y ∧ arc g 0 y z) as Hunsnoc.
  { intros k. induction k as [|k IH]; intros x z (y & Hxy & Hd); [cbn in Hd; subst; by exists x|].
    apply IH in Hd as (w & Hw & Hwz). exists w. split; [|done]. cbn. eauto. }
  (** descending paths meet *)
  assert (∀ b a x u u' v, desc g a x u → desc g b x u' → arc g 0 v u' →
    ∃ x' a' b', a' + b' ≤ a + b + 1 ∧ desc g a' x' u ∧ desc g b' x' v) as Hmeet.
  { intros b. induction b as [|b IH]; intros a x u u' v Hxu Hxu' Hv.
    - cbn in Hxu'. subst x. exists v, (S a), 0. split_and!; [lia| |done]. cbn. eauto.
    - apply Hunsnoc in Hxu' as (m & Hxm & Hm). destruct (decide (v = m)) as [->|Hne].
      { exists x, a, b. split_and!; [lia|done|done]. }
      assert (adj G v m) as [He|He]%Hedge by (by apply (Hclique v u' m); [apply harc_S..|]).
      + destruct (IH a x u m v Hxu Hxm He) as (x' & a' & b' & ? & ? & ?). exists x', a', b'. split_and!; [lia|done|done].
      + exists x, a, (S b). split_and!; [lia|done|by eapply Hsnoc]. }
  assert (∀ n u v, nsteps (adj G) n u v → ∃ x a b, a + b ≤ n ∧ desc g a x u ∧ desc g b x v) as Hpath.
  { intros n u. induction n as [|n IH]; intros v Hn.
    - inversion Hn; subst. exists v, 0, 0. split_and!; done.
    - apply nsteps_inv_r in Hn as (u' & Hn & He%Hedge). destruct (IH u' Hn) as (x & a & b & Hab & Hxu & Hxu'). destruct He as [He|He].
      + exists x, a, (S b). split_and!; [lia|done|by eapply Hsnoc].
      + destruct (Hmeet b a x u u' v Hxu Hxu' He) as (x' & a' & b' & ? & ? & ?). exists x', a', b'. split_and!; [lia|done|done]. }
  intros u v n Hne (x & a & b & Hab & Hxu & Hxv)%Hpath Hle.
  destruct a as [|a]; [|destruct b as [|b]].
  - cbn in Hxu. subst x. destruct b as [|b]; [by cbn in Hxv|].
    destruct (desc_arc g order b u v Ht Hnd Hord Hxv) as (_ & j & Hj & Haj); [lia|]. exists (S j). split; [lia|]. left. eauto.
  - cbn in Hxv. subst x. destruct (desc_arc g order a v u Ht Hnd Hord Hxu) as (_ & j & Hj & Haj); [lia|]. exists (S j). split; [lia|]. left. eauto.
  - destruct (desc_arc g order a x u Ht Hnd Hord Hxu) as (_ & i & Hi & Hai); [lia|].
    destruct (desc_arc g order b x v Ht Hnd Hord Hxv) as (_ & j & Hj & Haj); [lia|].
    exists (S i + S j). split; [lia|]. right. exists i, j, x. split_and!; [done|by eapply Hb|by eapply Hb|done|done].
Qed.

(** On forests the claim holds in full: every non-empty set of vertices has one with at most one neighbour in the set. *)
Theorem C54_forest (G : graph) (g : dtfgraph) : graph_wf G → loopless G → dtf_reach G g →
  (∀ (H : gset N), H ≠ ∅ → ¬ min_degree G H 2) → sd_exact G g.
Proof.
  intros HG Hl Hr Hforest. apply C54_cliques_partial; [done|done|done|].
  destruct (reach_layer_inv G g HG Hl (reach_reach_layer G g Hr)) as [_ (g0 & Hg0 & Ha0)].
  destruct (orient_spec G HG Hl) as (g' & lo & up & order & core & Hg' & Hdeg & _ & _ & _ & Hnd & Hel & _ & Ha). assert (g' = g0) as -> by congruence.
  intros x y z Hx Hz Hne. exfalso. rewrite harc_S, Ha0, Ha in Hx, Hz. destruct Hx as (? & Hx & Hbx), Hz as (_ & Hz & Hbz).
  assert (∃ v, vtx G v) as Hv by (exists x; by eapply wf_adj_vtx).
  destruct (C24_lower_bound G lo up order core HG Hl Hdeg Hv) as (_ & S & HS & Hmin & _).
  assert (up ≤ 1) as Hup.
  { destruct (decide (up ≤ 1)) as [|Hup]; [done|]. exfalso. apply (Hforest S HS). intros v Hv'. destruct (Hmin v Hv') as (? & l & ? & ? & ?).
    split; [done|]. exists l. split_and!; [done|lia|done]. }
  destruct (C24_exact_small G lo up order core HG Hl Hdeg Hv) as (_ & _ & _ & Hleft); [lia|].
  assert (length [x; z] ≤ up) as Hlen; [|cbn in Hlen; lia]. apply (Hleft y). split.
  - apply NoDup_cons. split; [by rewrite elem_of_list_singleton|apply NoDup_singleton].
  - intros w [->|[->|[]%elem_of_nil]%elem_of_cons]%elem_of_cons; (split; [by apply wf_adj_sym|done]).
Qed.

(** A graph in which every vertex has at most one smaller neighbour is a forest. *)
Lemma forest_by_labels G : loopless G → (∀ v x y, adj G v x → adj G v y → (x < v)%N → (y < v)%N → x = y) →
  ∀ (H : gset N), H ≠ ∅ → ¬ min_degree G H 2.
Proof.
  intros Hl Hone H HH Hmin.
  assert (Transitive (λ x y : N, (y <= x)%N)) as Htr by (intros x y z; cbv beta; lia).
  assert (∀ x y : N, Decision ((λ x0 y0 : N, (y0 <= x0)%N) x y)) as Hdec by (intros x y; apply N_le_dec).
  destruct (minimal_exists_L (λ x y : N, (y <= x)%N) H HH) as (m & Hm & Hmax).
  destruct (Hmin m Hm) as (_ & l & Hnd & Hlen & Hin). destruct l as [|x [|y l]]; cbn in Hlen; [lia..|].
  assert (∀ z, z ∈ H → adj G m z → (z < m)%N) as Hlt.
  { intros z Hz Ha. destruct (N.lt_trichotomy z m) as [?|[->|Hgt]]; [done|by destruct (Hl m)|].
    assert (m <= z)%N as Hle by lia. specialize (Hmax z Hz). cbv beta in Hmax. lia. }
  destruct (Hin x) as [Hx Hax]; [set_solver|]. destruct (Hin y) as [Hy Hay]; [set_solver|].
  assert (x = y) as -> by (apply (Hone m); auto). apply NoDup_cons in Hnd as [Hn _]. set_solver.
Qed.

(** In particular on every generated path. *)
Theorem C54_path (n : N) (h : editgraph) (g : dtfgraph) : eg_path n = Ok h → dtf_reach (eg_graph h) g → sd_exact (eg_graph h) g.
Proof.
  intros Hh Hr. destruct (eg_path_spec n) as (h' & Hh' & Hwf & _ & He). assert (h' = h) as -> by congruence. clear Hh Hh'.
  assert (∀ x y, adj (eg_graph h) x y ↔ (x < n ∧ y < n ∧ (y = x + 1 ∨ x = y + 1))%N) as Ha by exact He.
  assert (loopless (eg_graph h)) as Hl by (intros x Hx%Ha; lia).
  apply C54_forest; [by apply eg_graph_wf|done|done|]. apply forest_by_labels; [done|]. intros v x y Hx%Ha Hy%Ha Hxv Hyv. lia.
Qed.
End with_iter.

(** ** Concrete cases *)
#[local] Existing Instance std_iter.

(** Computable forms of the hypotheses. *)
Definition clique_check (G : graph) (g : dtfgraph) : bool :=
  forallb (λ p : N * dtf_node, match dn_in p.2 !! 0 with
    | Some X => forallb (λ x, forallb (λ z, (x =? z)%N || adjacent G x z) (elements X)) (elements X) | None => true end) (map_to_list (df_nodes g)).
Lemma clique_check_ok G g : clique_check G g = true → ∀ x y z, harc g 1 x y → harc g 1 z y → x ≠ z → adj G x z.
Proof.
  unfold clique_check. rewrite forallb_forall. intros Hall x y z (n & X & Hn & HX & Hx)%harc_S (n' & X' & Hn' & HX' & Hz)%harc_S Hne.
  assert (n' = n) as -> by congruence. assert (X' = X) as -> by congruence.
  specialize (Hall (y, n)). cbn [snd] in Hall. rewrite HX in Hall.
  assert (In (y, n) (map_to_list (df_nodes g))) as Hin by (by apply elem_of_list_In, elem_of_map_to_list).
  apply Hall in Hin. rewrite forallb_forall in Hin. specialize (Hin x). rewrite forallb_forall in Hin.
  assert (∀ a, a ∈ X → In a (elements X)) as HXe by (intros a Ha; by apply elem_of_list_In, elem_of_elements).
  pose proof (Hin (HXe x Hx) z (HXe z Hz)) as Hz'.
  apply orb_true_iff in Hz' as [?%N.eqb_eq|?]; done.
Qed.
Definition harcb (g : dtfgraph) (w : nat) (x y : N) : bool := match df_has_arc_at g x y w with Ok b => b | _ => false end.
Lemma harcb_ok g w x y : harcb g w x y = true → harc g w x y.
Proof. unfold harcb, harc. destruct (df_has_arc_at g x y w) as [b| |]; [by intros ->|done..]. Qed.
Definition frat_check (g : dtfgraph) : bool :=
  forallb (λ p : N * dtf_node, match dn_in p.2 !! 0 with
    | Some X => forallb (λ x, forallb (λ j, match dn_in p.2 !! j with
        | Some Z => forallb (λ z, (x =? z)%N || existsb (λ k, harcb g (S k) x z || harcb g (S k) z x) (seq 0 (j + 2))) (elements Z)
        | None => true end) (seq 0 (df_depth g - 1))) (elements X) | None => true end) (map_to_list (df_nodes g)).
Lemma frat_check_ok g : frat_check g = true →
  ∀ x y z w, harc g 1 x y → harc g w z y → x ≠ z → w + 1 ≤ df_depth g → ∃ w', w' ≤ w + 1 ∧ (harc g w' x z ∨ harc g w' z x).
Proof.
  unfold frat_check. rewrite forallb_forall. intros Hall x y z w (n & X & Hn & HX & Hx)%harc_S Hz Hne Hle.
  apply harc_arc in Hz as (j & -> & n' & Z & Hn' & HZ & Hz). assert (n' = n) as -> by congruence.
  specialize (Hall (y, n)). cbn [snd] in Hall. rewrite HX in Hall.
  assert (In (y, n) (map_to_list (df_nodes g))) as Hin by (by apply elem_of_list_In, elem_of_map_to_list).
  apply Hall in Hin. rewrite forallb_forall in Hin. specialize (Hin x). rewrite forallb_forall in Hin.
  assert (∀ (Y : gset N) a, a ∈ Y → In a (elements Y)) as HXe by (intros Y a Ha; by apply elem_of_list_In, elem_of_elements).
  specialize (Hin (HXe X x Hx) j). rewrite HZ, forallb_forall in Hin. assert (In j (seq 0 (df_depth g - 1))) as Hj by (apply in_seq; lia).
  pose proof (Hin Hj z (HXe Z z Hz)) as Hz'.
  apply orb_true_iff in Hz' as [?%N.eqb_eq|Hk]; [done|]. apply existsb_exists in Hk as (k & Hk%in_seq & Ha%orb_true_iff).
  exists (S k). split; [lia|]. destruct Ha as [?%harcb_ok|?%harcb_ok]; auto.
Qed.

Definition ex_cycle6 : list (N * N) := [(0, 1); (1, 2); (2, 3); (3, 4); (4, 5); (5, 0)]%N.
Example ex_C54_closed : dtf_reach (eg_graph (ex_edit ex_cycle6)) (ex_dtf_run ex_cycle6 3 1) ∧ frat_check (ex_dtf_run ex_cycle6 3 1) = true ∧
  sd_exact (eg_graph (ex_edit ex_cycle6)) (ex_dtf_run ex_cycle6 3 1) ∧
  df_small_distance (ex_dtf_run ex_cycle6 3 1) 0 3 = Ok (Some 3) ∧ df_small_distance (ex_dtf_run ex_cycle6 3 1) 1 5 = Ok (Some 2).
Proof.
  destruct (ex_dtf_ok ex_cycle6 3 1) as (Hwf & Hl & Hr); [done|]. assert (frat_check (ex_dtf_run ex_cycle6 3 1) = true) as Hc by (vm_compute; reflexivity).
  split; [exact Hr|]. split; [exact Hc|]. split; [|vm_compute; split; reflexivity]. apply C54_closed_partial; [exact Hwf|exact Hl|exact Hr|by apply frat_check_ok].
Qed.
Definition ex_triangles : list (N * N) := [(0, 1); (0, 2); (1, 2); (2, 3); (3, 4); (3, 5); (4, 5)]%N.
Example ex_C54_cliques : dtf_reach (eg_graph (ex_edit ex_triangles)) (ex_dtf_run ex_triangles 4 1) ∧
  clique_check (eg_graph (ex_edit ex_triangles)) (ex_dtf_run ex_triangles 4 1) = true ∧
  sd_exact (eg_graph (ex_edit ex_triangles)) (ex_dtf_run ex_triangles 4 1) ∧ df_small_distance (ex_dtf_run ex_triangles 4 1) 0 5 = Ok (Some 3).
Proof.
  destruct (ex_dtf_ok ex_triangles 4 1) as (Hwf & Hl & Hr); [done|].
  assert (clique_check (eg_graph (ex_edit ex_triangles)) (ex_dtf_run ex_triangles 4 1) = true) as Hc by (vm_compute; reflexivity).
  split; [exact Hr|]. split; [exact Hc|]. split; [|vm_compute; reflexivity]. apply C54_cliques_partial; [exact Hwf|exact Hl|exact Hr|by apply clique_check_ok].
Qed.
Definition ex_tree : list (N * N) := [(0, 1); (1, 2); (2, 3); (1, 4); (4, 5); (5, 6)]%N.
Example ex_C54_forest : dtf_reach (eg_graph (ex_edit ex_tree)) (ex_dtf_run ex_tree 4 2) ∧
  (∀ H : gset N, H ≠ ∅ → ¬ min_degree (eg_graph (ex_edit ex_tree)) H 2) ∧
  df_small_distance (ex_dtf_run ex_tree 4 2) 2 5 = Ok (Some 3) ∧ df_small_distance (ex_dtf_run ex_tree 4 2) 3 6 = Ok None.
Proof.
  destruct (ex_dtf_ok ex_tree 4 2) as (Hwf & Hl & Hr); [done|]. split; [exact Hr|]. split; [|vm_compute; split; reflexivity].
  apply forest_by_labels; [exact Hl|]. destruct (ex_edit_spec ex_tree) as [_ Hadj].
  assert (∀ v x, adj (eg_graph (ex_edit ex_tree)) v x → (x < v)%N → (x, v) ∈ ex_tree) as Hs.
  { intros v x [Hin|Hin]%Hadj Hlt; [|done]. exfalso. assert (Forall (λ e : N * N, (e.1 < e.2)%N) ex_tree) as Hf by (repeat constructor).
    rewrite Forall_forall in Hf. apply Hf in Hin. cbn in Hin. lia. }
  intros v x y Hx Hy Hxv Hyv. apply Hs in Hx, Hy; [|done..]. clear -Hx Hy.
  assert (Forall (λ e : N * N, Forall (λ f : N * N, e.2 = f.2 → e.1 = f.1) ex_tree) ex_tree) as Hf by (apply (bool_decide_unpack _); vm_compute; exact I).
  rewrite Forall_forall in Hf. specialize (Hf _ Hx). rewrite Forall_forall in Hf. by apply (Hf _ Hy).
Qed.
Example ex_C54_path : (h ← eg_path 7; g ← df_orient (eg_graph h); g ← df_augment g 5 1; df_small_distance g 1 6) = Ok (Some 5) ∧
  (h ← eg_path 7; g ← df_orient (eg_graph h); g ← df_augment g 5 1; df_small_distance g 0 6) = Ok None.
Proof. vm_compute. split; reflexivity. Qed.

Print Assumptions C54_closed_partial.
Print Assumptions C54_cliques_partial.
Print Assumptions C54_forest.
Print Assumptions C54_path.
