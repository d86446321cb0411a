(** Property theorem C109: isolated vertices and the answers of the algorithms (algorithms/graph.rs:41-223): what is lost when a graph is
    written to a file and read back (io.rs:99-160), or when [remove_isolates] is called (graph.rs:458-470), and nothing else. *)
From Verif Require Import Base Spec M_Graph M_Iterators M_EditGraph M_Algorithms M_IO S_Graph S_IO
  P_EditGraph P_EditGraph2 P_Graph P_Degeneracy P_Determin2 P_Compose P_Counts T_EditGraph T_Algorithms T_Determin2 T_Edits T_IO Examples.

(** The answers on [G] in terms of those on [h], if [G] has the isolated vertices [iso] in addition. *)
Definition isolates_apart `{HI : HashIter} (G H : graph) (iso : list N) : Prop :=
  num_edges G = num_edges H ∧ num_vertices G = length iso + num_vertices H ∧
  (∃ cs1 cs2, components H = Ok cs1 ∧ components G = Ok cs2 ∧ cs2 ≡ₚ ((λ v, {[v]}) <$> iso) ++ cs1) ∧
  ((∃ L R, is_bipartite G = Ok (Bipartition L R)) ↔ ∃ L R, is_bipartite H = Ok (Bipartition L R)) ∧
  ((∀ u, adjacent G u u = false) → ∃ lo up o1 c1 o2 c2, degeneracy H = Ok (lo, up, o1, c1) ∧ degeneracy G = Ok (lo, up, o2, c2) ∧
     ∀ v, c2 !! v = if bool_decide (v ∈ iso) then Some 0 else c1 !! v).

Section saved.
Context {Hi : HashIter}.

Lemma isolates_added (g : editgraph) (l : list N) : eg_reachable g → NoDup l → (∀ v, v ∈ l → eg_contains g v = false) →
  ∃ k, eg_reachable k ∧ (∀ x, eg_contains k x = true ↔ x ∈ l ∨ eg_contains g x = true) ∧ (∀ x y, eg_adjacent k x y = true ↔ eg_adjacent g x y = true) ∧
    (∃ cs1 cs2, components (eg_graph g) = Ok cs1 ∧ components (eg_graph k) = Ok cs2 ∧ cs2 ≡ₚ ((λ v, {[v]}) <$> l) ++ cs1) ∧
    ((∃ L R, is_bipartite (eg_graph k) = Ok (Bipartition L R)) ↔ ∃ L R, is_bipartite (eg_graph g) = Ok (Bipartition L R)) ∧
    ((∀ u, eg_adjacent g u u = false) → ∃ lo up o1 c1 o2 c2, degeneracy (eg_graph g) = Ok (lo, up, o1, c1) ∧ degeneracy (eg_graph k) = Ok (lo, up, o2, c2) ∧
       ∀ v, c2 !! v = if bool_decide (v ∈ l) then Some 0 else c1 !! v).
Proof.
  intros Rg. induction l as [|v l IH]; intros Hnd Hl.
  - exists g. split_and!; [done|set_solver|done| |done|].
    + destruct (C22_components (eg_graph g) (C10_reachable_wf g Rg)) as (cs & Hcs & _). by exists cs, cs.
    + intros Hll. destruct (C23_degeneracy_order (eg_graph g) (C10_reachable_wf g Rg)) as (lo & up & o & c & Hd & _).
      { intros u Hu. change (eg_adjacent g u u = true) in Hu. by rewrite Hll in Hu. }
      exists lo, up, o, c, o, c. split_and!; [done|done|]. intros v. by rewrite bool_decide_false by set_solver.
  - apply NoDup_cons in Hnd as [Hvl Hnd]. destruct IH as (k & Rk & HV & HA & (cs1 & cs2 & E1 & E2 & Hp) & Hb & Hdg); [done|set_solver|].
    assert (eg_contains k v = false) as Hkv.
    { apply not_true_iff_false. rewrite HV, (Hl v) by (by left). intros [?|?]; done. }
    destruct (C104_add_vertex k v Rk Hkv) as ((cs2' & cs3 & E2' & E3 & Hp') & Hb' & Hd'). set (k' := (eg_add_vertex k v).1) in *.
    destruct (eg_add_vertex_spec k v (proj1 (eg_reachable_wf k) Rk)) as (Hwk & _ & HV' & HA' & _). fold k' in Hwk, HV', HA'.
    exists k'. split_and!.
    + by apply eg_reachable_wf.
    + intros x. etrans; [apply HV'|]. etrans; [apply or_iff_compat_r, HV|]. rewrite elem_of_cons. tauto.
    + intros x y. etrans; [apply HA'|apply HA].
    + exists cs1, cs3. split_and!; [done|done|]. rewrite E2 in E2'. injection E2' as <-. rewrite Hp'. cbn. by rewrite Hp.
    + by rewrite Hb'.
    + intros Hll. destruct (Hdg Hll) as (lo & up & o1 & c1 & o2 & c2 & D1 & D2 & Hc).
      destruct Hd' as (lo' & up' & o2' & c2' & o3 & c3 & D2' & D3 & ->).
      { intros u. apply not_true_iff_false. rewrite HA, Hll. done. }
      rewrite D2 in D2'. injection D2' as <- <- <- <-. exists lo, up, o1, c1, o3, (<[v:=0]> c2). split_and!; [done|done|].
      intros x. destruct (decide (x = v)) as [->|Hne]; [by rewrite lookup_insert, bool_decide_true by (by left)|].
      rewrite lookup_insert_ne, Hc by done. destruct (decide (x ∈ l)); [by rewrite !bool_decide_true by set_solver|by rewrite !bool_decide_false by set_solver].
Qed.

Lemma isolates_lost (G : graph) (h : editgraph) : graph_wf G → eg_reachable h → (∀ u v, eg_adjacent h u v = adjacent G u v) →
  (∀ u, eg_contains h u = true ↔ ∃ v, adjacent G u v = true) →
  ∃ iso, NoDup iso ∧ (∀ v, v ∈ iso ↔ contains G v = true ∧ ∀ u, adjacent G v u = false) ∧ isolates_apart G (eg_graph h) iso.
Proof.
  intros Hwf Rh HA HV. pose proof (C10_reachable_wf h Rh) as Hhw.
  set (iso := filter (λ v, eg_contains h v = false) (vertices G)).
  assert (∀ v, v ∈ iso ↔ contains G v = true ∧ eg_contains h v = false) as Hiso.
  { intros v. unfold iso. rewrite elem_of_list_filter, (wf_vertices _ Hwf). unfold vtx. tauto. }
  assert (NoDup iso) as Hnd by (apply NoDup_filter, (wf_vertices_nodup _ Hwf)).
  exists iso. split_and!; [done| |].
  { intros v. rewrite Hiso. split; intros [Hv Hx]; (split; [done|]).
    - intros u. apply not_true_iff_false. intros Hu. apply not_true_iff_false in Hx. apply Hx, HV. eauto.
    - apply not_true_iff_false. rewrite HV. intros [u Hu]. by rewrite Hx in Hu. }
  destruct (isolates_added h iso Rh Hnd) as (k & Rk & HVk & HAk & (cs1 & cs2 & E1 & E2 & Hp) & Hb & Hdg); [intros v Hv; by apply Hiso|].
  pose proof (C10_reachable_wf k Rk) as Hkw.
  assert (same_graph (eg_graph k) G) as Hsame.
  { split.
    - intros u. apply eq_true_iff_eq. change (contains (eg_graph k) u) with (eg_contains k u). rewrite HVk, Hiso, HV. split; [intros [[? _]|[v Hv]]; [done|by eapply (wf_adj_vtx _ Hwf)]|].
      intros Hu. destruct (eg_contains h u) eqn:E; [right; by apply HV|by left].
    - intros u v. apply eq_true_iff_eq. change (adjacent (eg_graph k) u v) with (eg_adjacent k u v). by rewrite HAk, HA. }
  split_and!.
  - destruct (wf_num_edges _ Hwf) as (E & HE & ->), (wf_num_edges _ Hhw) as (E' & HE' & ->). f_equal. apply set_eq. intros [u v]. rewrite HE, HE'.
    unfold adj. change (adjacent (eg_graph h) u v) with (eg_adjacent h u v). by rewrite HA.
  - rewrite (wf_num_vertices _ Hwf), (wf_num_vertices _ Hhw), <- app_length. apply same_length; [apply (wf_vertices_nodup _ Hwf)| |].
    + apply NoDup_app. split_and!; [done| |apply (wf_vertices_nodup _ Hhw)]. intros v [_ Hv]%Hiso Hv'%(wf_vertices _ Hhw).
      change (eg_contains h v = true) in Hv'. congruence.
    + intros v. rewrite elem_of_app, Hiso, (wf_vertices _ Hwf), (wf_vertices _ Hhw). change (vtx (eg_graph h) v) with (eg_contains h v = true). split.
      * intros Hv. destruct (eg_contains h v); [by right|by left].
      * intros [[? _]|[u Hu]%HV]; [done|by eapply (wf_adj_vtx _ Hwf)].
  - destruct (C87_components Hi Hi (eg_graph k) G Hkw Hwf Hsame) as (cs2' & cs3 & E2' & E3 & Hp'). rewrite E2 in E2'. injection E2' as <-.
    exists cs1, cs3. split_and!; [done|done|]. by rewrite <- Hp', Hp.
  - rewrite <- Hb. destruct (C87_bipartite Hi Hi (eg_graph k) G Hkw Hwf Hsame) as [(L & R & L' & R' & Ek & EG)|(c & c' & Ek & EG)]; split; intros (A & B & E); eauto; congruence.
  - intros Hll. destruct Hdg as (lo & up & o1 & c1 & o2 & c2 & D1 & D2 & Hc); [intros u; by rewrite HA|].
    destruct (C87_degeneracy Hi Hi (eg_graph k) G Hkw Hwf) as (lo' & up' & core & o2' & o3 & D2' & D3 & _); [|done|].
    { intros u Hu. apply HAk in Hu. by rewrite HA, Hll in Hu. }
    rewrite D2 in D2'. injection D2' as <- <- <- <-. exists lo, up, o1, c1, o3, c2. done.
Qed.

(** ** Writing and reading back *)
Theorem C109_saved (G : graph) : graph_wf G → (∀ u, contains G u = true → (u < u32_mod)%N) →
  ∃ t h iso, graph_write G = Ok t ∧ eg_load t = Ok (IoOk h) ∧ NoDup iso ∧
    (∀ v, v ∈ iso ↔ contains G v = true ∧ ∀ u, adjacent G v u = false) ∧ isolates_apart G (eg_graph h) iso.
Proof.
  intros Hwf Hb. destruct (C61_roundtrip_partial G Hwf Hb) as (t & h & Ht & Hh & Rh & HE & HV).
  destruct (isolates_lost G h Hwf Rh HE HV) as (iso & H1 & H2 & H3). by exists t, h, iso.
Qed.
(** ** Removing the isolated vertices *)
Theorem C109_remove_isolates (g : editgraph) : eg_reachable g →
  ∃ h iso, eg_remove_isolates g = Ok (h, length iso) ∧ NoDup iso ∧
    (∀ v, v ∈ iso ↔ eg_contains g v = true ∧ ∀ u, eg_adjacent g v u = false) ∧ isolates_apart (eg_graph g) (eg_graph h) iso.
Proof.
  intros Rg. destruct (C08_remove_isolates g Rg) as (h & k & Eh & Rh & HV & HA & X & HX & ->). pose proof (C10_reachable_wf g Rg) as Hwf.
  destruct (isolates_lost (eg_graph g) h Hwf Rh) as (iso & H1 & H2 & H3).
  - intros u v. apply eq_true_iff_eq. apply HA.
  - intros u. rewrite HV. split; [intros [_ H]; exact H|]. intros [v Hv]. split; [by eapply (wf_adj_vtx _ Hwf)|by exists v].
  - exists h, iso. split_and!; [|done|exact H2|done]. rewrite Eh. do 2 f_equal. change (size X) with (length (elements X)).
    apply same_length; [apply NoDup_elements|done|]. intros v. rewrite elem_of_elements, HX, H2. split; intros [Hv Hn]; (split; [exact Hv|]); intros u.
    + apply not_true_iff_false, Hn.
    + intros Hu. specialize (Hn u). change (eg_adjacent g v u = false) in Hn. congruence.
Qed.
End saved.

(** ** A case meeting the hypotheses: a triangle, an edge, and the isolated vertices 8 and 9 *)
Local Existing Instance std_iter.
Definition C109_g : editgraph := (eg_add_vertex (eg_add_vertex (ex_edit [(0, 1); (1, 2); (2, 0); (4, 5)]%N) 9).1 8).1.
Lemma ex_C109_hyp : eg_reachable C109_g ∧ graph_wf (eg_graph C109_g) ∧ (∀ u, contains (eg_graph C109_g) u = true → (u < u32_mod)%N).
Proof.
  assert (eg_reachable C109_g) as Rg.
  { apply eg_reachable_wf. unfold C109_g. do 2 (apply eg_add_vertex_spec). apply eg_reachable_wf.
    destruct (C01_editgraph_refines (ex_ops_of [(0, 1); (1, 2); (2, 0); (4, 5)]%N)) as (h & Hh & _). unfold ex_edit. rewrite Hh. do 2 eexists. exact Hh. }
  split_and!; [exact Rg|by apply C10_reachable_wf|].
  intros u Hu. apply (wf_vertices _ (C10_reachable_wf _ Rg)) in Hu. assert (forallb (λ u, (u <? u32_mod)%N) (vertices (eg_graph C109_g)) = true) as Hall by (vm_compute; reflexivity).
  apply N.ltb_lt. rewrite forallb_forall in Hall. by apply Hall, elem_of_list_In.
Qed.
Definition C109_answers (G : graph) : option (nat * nat * nat * nat * bool) :=
  match degeneracy G, components G, is_bipartite G with
  | Ok (_, up, _, _), Ok cs, Ok w => Some (num_vertices G, num_edges G, length cs, up, match w with Bipartition _ _ => true | OddCycle _ => false end)
  | _, _, _ => None end.
Example ex_C109 : C109_answers (eg_graph C109_g) = Some (7, 4, 4, 2, false) ∧
  (t ← graph_write (eg_graph C109_g); r ← eg_load t; Ok match r with IoOk h => C109_answers (eg_graph h) | IoErr _ => None end) = Ok (Some (5, 4, 2, 2, false)) ∧
  ('(h, k) ← eg_remove_isolates C109_g; Ok (k, C109_answers (eg_graph h))) = Ok (2, Some (5, 4, 2, 2, false)).
Proof. vm_compute. split_and!; reflexivity. Qed.

Print Assumptions C109_saved.
Print Assumptions C109_remove_isolates.
