(** Properties C16 to C21, C66 and C67: EditDigraph. *)
From Verif Require Import Base Spec M_Graph M_Iterators M_EditGraph M_EditDigraph S_Graph S_Digraph
  P_EditGraph P_EditGraph2 P_Graph P_Iterators P_Adds P_Generators P_Unions P_EditDigraph P_EditDigraph2.

Section with_iter.
Context `{HI : HashIter}.

(** ** C16 *)
(** Every editing sequence runs to completion, and every return value says whether
    the digraph changed. *)
Theorem C16_run_total (os : list edit_op) :
  ∃ g, ed_run ed_new os = Ok (g, (d_run d_empty os).2).
Proof. destruct (ed_run_rep os _ _ ed_new_rep) as (g & ? & _). by exists g. Qed.

(** Every query answers as the abstract digraph [D] does. *)
Theorem C16_queries (os : list edit_op) g bs :
  ed_run ed_new os = Ok (g, bs) →
  let D := (d_run d_empty os).1 in
  ed_num_vertices g = size (dv D) ∧ ed_num_edges g = size (da D) ∧
  NoDup (vertices (ed_graph g)) ∧ (∀ u, u ∈ vertices (ed_graph g) ↔ u ∈ dv D) ∧
  (∀ u, ed_contains g u = true ↔ u ∈ dv D) ∧
  (∀ u v, ed_has_arc g u v = true ↔ (u, v) ∈ da D) ∧
  (∀ u v, (u, v) ∈ da D → u ∈ dv D ∧ v ∈ dv D) ∧
  (∀ u, u ∈ dv D → ∃ li lo,
     ed_in_neighbours g u = Ok li ∧ NoDup li ∧ (∀ v, v ∈ li ↔ (v, u) ∈ da D) ∧
     ed_out_neighbours g u = Ok lo ∧ NoDup lo ∧ (∀ v, v ∈ lo ↔ (u, v) ∈ da D) ∧
     ed_neighbours g u = Ok (li ++ lo) ∧
     ed_in_degree g u = Ok (length li) ∧ ed_out_degree g u = Ok (length lo) ∧
     ed_degree g u = length li + length lo).
Proof.
  intros Hr D. destruct (ed_run_rep os _ _ ed_new_rep) as (g' & Hr' & HR).
  rewrite Hr in Hr'. simplify_eq. fold D in HR. clearbody D. clear Hr.
  assert (ed_wf g') as Hg by (by eexists). split_and!.
  - rewrite ed_num_vertices_spec. cbn. rewrite hash_iter_length. f_equal. apply set_eq. intros u.
    rewrite elem_of_dom, (drep_out _ _ HR). case_decide; split; try done; [by eauto..|]. by intros [? ?].
  - apply HR.
  - apply ed_vertices_nodup.
  - intros u. rewrite (ed_vertices _ _ Hg). apply (dvtx_rep _ _ _ HR).
  - intros u. apply (dvtx_rep _ _ _ HR).
  - intros u v. apply (darc_rep _ _ _ _ HR).
  - intros u v Ha. apply (drep_wf _ _ HR _ Ha).
  - intros u Hu. rewrite <- (dvtx_rep _ _ _ HR) in Hu.
    destruct (ed_in_neighbours_spec g' u Hg Hu) as (li & Hi & Hni & Hli & Hdi & Hxi).
    destruct (ed_out_neighbours_spec g' u Hg Hu) as (lo & Ho & Hno & Hlo & Hdo & Hxo).
    exists li, lo. split_and!; try done.
    + intros v. rewrite Hli. apply (darc_rep _ _ _ _ HR).
    + intros v. rewrite Hlo. apply (darc_rep _ _ _ _ HR).
    + unfold ed_neighbours, ed_in_neighbours, ed_out_neighbours in *. rewrite Hu. cbn [negb].
      destruct (ed_in g' !! u), (ed_out g' !! u); cbn in *; congruence.
    + unfold ed_degree. by rewrite Hxi, Hxo.
Qed.

(** Queries about vertices that are not in the digraph panic, as documented. *)
Theorem C16_absent_panics (os : list edit_op) g bs u :
  ed_run ed_new os = Ok (g, bs) → u ∉ dv (d_run d_empty os).1 →
  ed_in_neighbours g u = Panic ∧ ed_out_neighbours g u = Panic ∧ ed_neighbours g u = Panic ∧
  ed_in_degree g u = Panic ∧ ed_out_degree g u = Panic ∧ ed_degree g u = 0.
Proof.
  intros Hr Hu. destruct (ed_run_rep os _ _ ed_new_rep) as (g' & Hr' & HR).
  rewrite Hr in Hr'. simplify_eq.
  unfold ed_in_neighbours, ed_out_neighbours, ed_neighbours, ed_in_degree, ed_out_degree, ed_degree.
  rewrite (drep_contains _ _ _ HR), (drep_in _ _ HR), (drep_out _ _ HR), (drep_outd _ _ HR), (drep_ind _ _ HR).
  rewrite !(decide_False _ _ Hu), bool_decide_false by done. done.
Qed.

(** ** C17 *)
(** What [adjacent] and [neighbours] of the Graph trait do answer on a digraph. *)
Theorem C17_adjacent_exact g u v :
  ed_reachable g → adjacent (ed_graph g) u v = true ↔ ed_has_arc g u v = true.
Proof. intros _. cbn. unfold ed_adjacent. by rewrite orb_diag. Qed.

Theorem C17_neighbours_both_directions g u :
  ed_reachable g → ed_contains g u = true →
  ∃ l, neighbours (ed_graph g) u = Ok l ∧
    ∀ v, v ∈ l ↔ ed_has_arc g u v = true ∨ ed_has_arc g v u = true.
Proof.
  intros Hg%ed_reachable_wf Hu. destruct (ed_neighbours_spec g u Hg Hu) as (li & lo & Hl & _ & _ & Hi & Ho).
  exists (li ++ lo). split; [done|]. intros v. rewrite elem_of_app, Hi, Ho. naive_solver.
Qed.

(** The claim (adjacent(u,v) iff arc uv or arc vu) holds for digraphs in which every arc
    has its reverse. *)
Theorem C17_adjacent_undirected_partial g u v :
  ed_reachable g →
  (∀ x y, ed_has_arc g x y = true → ed_has_arc g y x = true) →
  (adjacent (ed_graph g) u v = true ↔ ed_has_arc g u v = true ∨ ed_has_arc g v u = true) ∧
  adjacent (ed_graph g) u v = adjacent (ed_graph g) v u.
Proof.
  intros _ Hs. cbn. unfold ed_adjacent. rewrite !orb_diag.
  pose proof (Hs u v). pose proof (Hs v u).
  destruct (ed_has_arc g u v), (ed_has_arc g v u); naive_solver.
Qed.

(** It is false in general: one arc 0 → 1. *)
Theorem C17_adjacent_undirected_refuted :
  ∃ g u v l, ed_reachable g ∧ ed_has_arc g u v = true ∧ adjacent (ed_graph g) u v = true ∧
    adjacent (ed_graph g) v u = false ∧ neighbours (ed_graph g) v = Ok l ∧ u ∈ l.
Proof.
  destruct (C16_run_total [AddEdge 0 1]%N) as (g & Hr).
  pose proof (C16_queries _ _ _ Hr) as (_ & _ & _ & _ & Hv & Ha & _).
  assert (ed_reachable g) as Hg by (do 2 eexists; exact Hr).
  assert (ed_contains g 1%N = true) as H1 by (apply Hv; cbn; set_solver).
  assert (ed_has_arc g 0%N 1%N = true) as H01 by (apply Ha; cbn; set_solver).
  destruct (C17_neighbours_both_directions g 1%N Hg H1) as (l & Hl & Hin).
  exists g, 0%N, 1%N, l. split_and!; [done|done| | |done|apply Hin; auto].
  - by apply C17_adjacent_exact.
  - apply not_true_is_false. rewrite C17_adjacent_exact, Ha by done. cbn. set_solver.
Qed.

(** ** C18 *)
Theorem C18_arcs_drain g :
  ed_reachable g →
  ∃ s l, ai_new (ed_digraph g) = Ok s ∧ drains (ai_next (ed_digraph g)) s l ∧
    NoDup l ∧ (∀ u v, (u, v) ∈ l ↔ ed_has_arc g u v = true) ∧ length l = ed_num_edges g.
Proof.
  intros Hg%ed_reachable_wf. destruct (arcs_spec g Hg) as (l & Hl & ? & ? & ?).
  destruct (arcs_drains _ _ Hl) as (s & ? & ?). exists s, l. done.
Qed.

(** ** C19 *)
(** Exact description of disj_union: the arcs of both operands lose their orientation and
    point from the smaller to the larger label. *)
Theorem C19_disj_union_exact g h :
  ed_reachable g → ed_reachable h →
  (∀ v, ed_contains h v = true → (v < 4294967296)%N) →
  (∀ u v, ed_contains g u = true → ed_contains h v = true → (u + 1 + v < 4294967296)%N) →
  ∃ r off, ed_disj_union g (ed_graph h) = Ok r ∧ ed_reachable r ∧
    (∀ u v, ed_contains g u = true → ed_contains h v = true → (u < v + off)%N) ∧
    (∀ x, ed_contains r x = true ↔ ed_contains g x = true ∨ ∃ v, ed_contains h v = true ∧ x = (v + off)%N) ∧
    (∀ x y, ed_has_arc r x y = true ↔
       (x <= y)%N ∧ ((ed_has_arc g x y = true ∨ ed_has_arc g y x = true) ∨
         ∃ u v, x = (u + off)%N ∧ y = (v + off)%N ∧ (ed_has_arc h u v = true ∨ ed_has_arc h v u = true))).
Proof.
  intros Hg%ed_reachable_wf Hh%ed_reachable_wf Hlab Hno.
  destruct (ed_edges_spec h Hh) as (es & Hes & Hin).
  destruct (ed_disj_union_spec g (ed_graph h) es Hg Hes) as (r & off & Hr & Hwf & H1 & _ & HV & HA).
  - intros u v [_ Ha]%Hin. rewrite !(ed_vertices _ _ Hh).
    destruct Ha as [Ha|Ha]; apply (darc_vtx _ _ _ Hh) in Ha; naive_solver.
  - intros v Hv%(ed_vertices _ _ Hh). by apply Hlab.
  - intros u v Hu Hv%(ed_vertices _ _ Hh). by apply Hno.
  - exists r, off. split_and!; [done|by apply ed_reachable_wf| | |].
    + intros u v Hu Hv. apply (ed_vertices _ _ Hh) in Hv. specialize (H1 u v Hv Hu). lia.
    + intros x. rewrite (HV x). setoid_rewrite (ed_vertices _ _ Hh). done.
    + intros x y. rewrite (HA x y). setoid_rewrite Hin. split.
      * intros [[? ?]|(u & v & [? ?] & -> & ->)]; [by auto|]. split; [lia|]. right. by exists u, v.
      * intros [? [?|(u & v & -> & -> & ?)]]; [by left|]. right. exists u, v. split_and!; [lia|done|done|done].
Qed.

(** If all arcs of both operands point from the smaller to the larger label, disj_union
    preserves vertices and arcs with their orientation. *)
Theorem C19_disj_union_partial g h :
  ed_reachable g → ed_reachable h →
  (∀ v, ed_contains h v = true → (v < 4294967296)%N) →
  (∀ u v, ed_contains g u = true → ed_contains h v = true → (u + 1 + v < 4294967296)%N) →
  (∀ u v, ed_has_arc g u v = true → (u <= v)%N) →
  (∀ u v, ed_has_arc h u v = true → (u <= v)%N) →
  ∃ r off, ed_disj_union g (ed_graph h) = Ok r ∧ ed_reachable r ∧
    (∀ u v, ed_contains g u = true → ed_contains h v = true → (u < v + off)%N) ∧
    (∀ x, ed_contains r x = true ↔ ed_contains g x = true ∨ ∃ v, ed_contains h v = true ∧ x = (v + off)%N) ∧
    (∀ x y, ed_has_arc r x y = true ↔ ed_has_arc g x y = true ∨
         ∃ u v, x = (u + off)%N ∧ y = (v + off)%N ∧ ed_has_arc h u v = true).
Proof.
  intros Hg Hh Hlab Hno Hog Hoh.
  destruct (C19_disj_union_exact g h Hg Hh Hlab Hno) as (r & off & ? & ? & ? & ? & HA).
  exists r, off. split_and!; [done..|]. intros x y. rewrite HA. split.
  - intros [Hle [[?|Ha]|(u & v & -> & -> & [?|Ha])]]; [by auto| |by eauto 6|].
    + apply Hog in Ha as Hyx. assert (x = y) as -> by lia. by left.
    + apply Hoh in Ha as Hyx. assert (u = v) as -> by lia. eauto 6.
  - intros [Ha|(u & v & -> & -> & Ha)]; [split; [by apply Hog|by auto]|].
    split; [apply Hoh in Ha; lia|]. right. by exists u, v; auto.
Qed.

(** In general orientation is lost: the arc 1 → 0 becomes 0 → 1, and it is lost
    entirely if both arcs are present (one of the two arcs disappears). *)
Theorem C19_disj_union_refuted :
  ∃ g r, ed_reachable g ∧ ed_disj_union g (ed_graph ed_new) = Ok r ∧
    ed_has_arc g 1%N 0%N = true ∧ ed_has_arc r 1%N 0%N = false ∧
    ed_has_arc g 0%N 1%N = false ∧ ed_has_arc r 0%N 1%N = true.
Proof.
  destruct (C16_run_total [AddEdge 1 0]%N) as (g & Hr).
  pose proof (C16_queries _ _ _ Hr) as (_ & _ & _ & _ & _ & Ha & _).
  assert (ed_reachable g) as Hg by (do 2 eexists; exact Hr).
  assert (ed_reachable ed_new) as Hn by (by exists [], []).
  destruct (C19_disj_union_exact g ed_new Hg Hn) as (r & off & Hr' & _ & _ & _ & HA); [done|done|].
  exists g, r. split_and!; [done|done| | | |].
  - apply Ha. cbn. set_solver.
  - apply not_true_is_false. rewrite HA. intros [? _]. lia.
  - apply not_true_is_false. rewrite Ha. cbn. set_solver.
  - apply HA. split; [lia|]. left. right. apply Ha. cbn. set_solver.
Qed.

(** The exact behaviour of normalize. *)
Theorem C19_normalize_exact g :
  ed_reachable g →
  ∃ h m, ed_normalize g = Ok (h, m) ∧ ed_reachable h ∧
    (∀ i, is_Some (m !! i) ↔ (i < N.of_nat (ed_num_vertices g))%N) ∧
    (∀ u, ed_contains g u = true ↔ ∃ i, m !! i = Some u) ∧
    (∀ i j u v, m !! i = Some u → m !! j = Some v → (i < j)%N → (u < v)%N) ∧
    (∀ i, ed_contains h i = true ↔ (i < N.of_nat (ed_num_vertices g))%N) ∧
    (∀ i j, ed_has_arc h i j = true ↔
       ∃ u v, m !! i = Some u ∧ m !! j = Some v ∧ (u <= v)%N ∧
              (ed_has_arc g u v = true ∨ ed_has_arc g v u = true)).
Proof.
  intros Hg%ed_reachable_wf. destruct (ed_normalize_spec g Hg) as (h & m & ? & Hwf & H).
  exists h, m. split; [done|]. split; [by apply ed_reachable_wf|exact H].
Qed.

Theorem C19_normalize_partial g :
  ed_reachable g → (∀ u v, ed_has_arc g u v = true → (u <= v)%N) →
  ∃ h m, ed_normalize g = Ok (h, m) ∧ ed_reachable h ∧
    (∀ u, ed_contains g u = true ↔ ∃ i, m !! i = Some u) ∧
    (∀ i j u v, m !! i = Some u → m !! j = Some v → (i < j)%N → (u < v)%N) ∧
    (∀ i, ed_contains h i = true ↔ (i < N.of_nat (ed_num_vertices g))%N) ∧
    (∀ i j, ed_has_arc h i j = true ↔
       ∃ u v, m !! i = Some u ∧ m !! j = Some v ∧ ed_has_arc g u v = true).
Proof.
  intros Hg Ho. destruct (C19_normalize_exact g Hg) as (h & m & ? & ? & _ & Hm & ? & ? & HA).
  exists h, m. split_and!; [done..|]. intros i j. rewrite HA. split.
  - intros (u & v & ? & ? & ? & [?|Ha]); [by eauto|]. apply Ho in Ha as ?.
    assert (u = v) as -> by lia. eauto.
  - intros (u & v & ? & ? & Ha). exists u, v. split_and!; auto.
Qed.

Theorem C19_normalize_refuted :
  ∃ g h m, ed_reachable g ∧ ed_normalize g = Ok (h, m) ∧ m !! 0%N = Some 4%N ∧ m !! 1%N = Some 7%N ∧
    ed_has_arc g 7%N 4%N = true ∧ ed_has_arc h 1%N 0%N = false.
Proof.
  destruct (C16_run_total [AddEdge 7 4]%N) as (g & Hr).
  pose proof (C16_queries _ _ _ Hr) as (Hn & _ & _ & _ & Hv & Ha & _).
  assert (ed_reachable g) as Hg by (do 2 eexists; exact Hr).
  assert (ed_num_vertices g = 2) as Hn2 by (rewrite Hn; done). clear Hn.
  destruct (C19_normalize_exact g Hg) as (h & m & ? & _ & Hd & Himg & Hmono & _ & HA).
  rewrite Hn2 in Hd.
  assert (is_Some (m !! 0%N)) as [a Ha0] by (apply Hd; lia).
  assert (is_Some (m !! 1%N)) as [b Hb1] by (apply Hd; lia).
  assert (a < b)%N as Hab by (apply (Hmono 0 1)%N; [done|done|lia]).
  assert (∀ x, ed_contains g x = true → x = 4 ∨ x = 7)%N as H47.
  { intros x. rewrite Hv. cbn. set_solver. }
  assert (a = 4 ∨ a = 7)%N as Ha' by (apply H47, Himg; eauto).
  assert (b = 4 ∨ b = 7)%N as Hb' by (apply H47, Himg; eauto).
  assert (a = 4 ∧ b = 7)%N as [-> ->] by lia.
  exists g, h, m. split_and!; [done|done|done|done| |].
  - apply Ha. cbn. set_solver.
  - apply not_true_is_false. rewrite HA. intros (u & v & ? & ? & ? & _). simplify_eq. lia.
Qed.

(** ** C20 *)
Theorem C20_eq g h :
  ed_reachable g → ed_reachable h →
  ed_eq g h = true ↔
    (∀ u, ed_contains g u = true ↔ ed_contains h u = true) ∧
    (∀ u v, ed_has_arc g u v = true ↔ ed_has_arc h u v = true).
Proof.
  intros Hg%ed_reachable_wf Hh%ed_reachable_wf. rewrite ed_eq_spec by done. split.
  - intros ->. done.
  - intros [? ?]. by apply ed_wf_ext.
Qed.

Theorem C20_clone g :
  ed_reachable g → ∃ h, ed_clone g = Ok h ∧ ed_reachable h ∧ ed_eq h g = true ∧ ed_eq g h = true.
Proof.
  intros Hr. assert (ed_wf g) as Hg by (by apply ed_reachable_wf). exists g.
  rewrite ed_clone_spec by done. split_and!; [done|done|by apply ed_eq_spec..].
Qed.

(** ** C21 *)
Theorem C21_out_neighbourhood g X :
  ed_reachable g → (∀ v, v ∈ X → ed_contains g v = true) →
  ∃ S, out_neighbourhood (ed_digraph g) X = Ok S ∧
    ∀ u, u ∈ S ↔ u ∉ X ∧ ∃ v, v ∈ X ∧ ed_has_arc g v u = true.
Proof. intros Hg%ed_reachable_wf HX. by apply out_neighbourhood_spec. Qed.

Theorem C21_in_neighbourhood g X :
  ed_reachable g → (∀ v, v ∈ X → ed_contains g v = true) →
  ∃ S, in_neighbourhood (ed_digraph g) X = Ok S ∧
    ∀ u, u ∈ S ↔ u ∉ X ∧ ∃ v, v ∈ X ∧ ed_has_arc g u v = true.
Proof. intros Hg%ed_reachable_wf HX. by apply in_neighbourhood_spec. Qed.

Theorem C21_out_degrees g :
  ed_reachable g →
  ∃ m, out_degrees (ed_digraph g) = Ok m ∧
    ∀ u k, m !! u = Some k ↔ ed_contains g u = true ∧
      ∃ l, NoDup l ∧ (∀ v, v ∈ l ↔ ed_has_arc g u v = true) ∧ k = length l.
Proof.
  intros Hg%ed_reachable_wf. unfold out_degrees. cbn [out_degree ed_digraph dg].
  destruct (fold_degrees (ed_out_degree g) (λ u, default 0 (ed_outd g !! u)) (vertices (ed_graph g)) ∅)
    as (m & Hm & Hin).
  { intros v Hv%(ed_vertices _ _ Hg). destruct (ed_out_neighbours_spec g v Hg Hv) as (l & _ & _ & _ & -> & ->). done. }
  exists m. split; [exact Hm|]. intros u k. rewrite Hin, (ed_vertices _ _ Hg), lookup_empty. split.
  - intros [[Hu ->]|[_ ?]]; [|done]. split; [done|].
    destruct (ed_out_neighbours_spec g u Hg Hu) as (l & _ & ? & ? & _ & ->). by exists l.
  - intros [Hu (l & Hnd & Hl & ->)]. left. split; [done|].
    destruct (ed_out_neighbours_spec g u Hg Hu) as (l' & _ & ? & Hl' & _ & ->). cbn.
    apply Permutation_length, NoDup_Permutation; [done|done|]. intros v. rewrite Hl, Hl'. done.
Qed.

Theorem C21_in_degrees g :
  ed_reachable g →
  ∃ m, in_degrees (ed_digraph g) = Ok m ∧
    ∀ u k, m !! u = Some k ↔ ed_contains g u = true ∧
      ∃ l, NoDup l ∧ (∀ v, v ∈ l ↔ ed_has_arc g v u = true) ∧ k = length l.
Proof.
  intros Hg%ed_reachable_wf. unfold in_degrees. cbn [in_degree ed_digraph dg].
  destruct (fold_degrees (ed_in_degree g) (λ u, default 0 (ed_ind g !! u)) (vertices (ed_graph g)) ∅)
    as (m & Hm & Hin).
  { intros v Hv%(ed_vertices _ _ Hg). destruct (ed_in_neighbours_spec g v Hg Hv) as (l & _ & _ & _ & -> & ->). done. }
  exists m. split; [exact Hm|]. intros u k. rewrite Hin, (ed_vertices _ _ Hg), lookup_empty. split.
  - intros [[Hu ->]|[_ ?]]; [|done]. split; [done|].
    destruct (ed_in_neighbours_spec g u Hg Hu) as (l & _ & ? & ? & _ & ->). by exists l.
  - intros [Hu (l & Hnd & Hl & ->)]. left. split; [done|].
    destruct (ed_in_neighbours_spec g u Hg Hu) as (l' & _ & ? & Hl' & _ & ->). cbn.
    apply Permutation_length, NoDup_Permutation; [done|done|]. intros v. rewrite Hl, Hl'. done.
Qed.

(** ** C67: bulk edits *)
Theorem C67_from_iter (es : list (N * N)) :
  ∃ h, ed_from_iter es = Ok h ∧ ed_reachable h ∧
    (∀ x, ed_contains h x = true ↔ ∃ e, e ∈ es ∧ (x = e.1 ∨ x = e.2)) ∧
    (∀ x y, ed_has_arc h x y = true ↔ (x, y) ∈ es).
Proof.
  destruct (ed_from_iter_spec es) as (h & ? & ? & H). exists h. split; [done|].
  split; [by apply ed_reachable_wf|exact H].
Qed.

(** [add_vertices] adds the given vertices and returns how many were new. *)
Theorem C67_add_vertices g (vs : list N) :
  ed_reachable g →
  ed_reachable (ed_add_vertices g vs).1 ∧
  (∀ x, ed_contains (ed_add_vertices g vs).1 x = true ↔ ed_contains g x = true ∨ x ∈ vs) ∧
  (∀ x y, ed_has_arc (ed_add_vertices g vs).1 x y = true ↔ ed_has_arc g x y = true) ∧
  ed_num_vertices (ed_add_vertices g vs).1 = ed_num_vertices g + (ed_add_vertices g vs).2.
Proof.
  intros Hg%ed_reachable_wf. destruct (dadds_add_vertices vs g Hg) as (h & [= <-] & Hw & HV & HA). split_and!.
  - by apply ed_reachable_wf.
  - exact HV.
  - intros x y. etransitivity; [apply (HA x y)|]. unfold darc. tauto.
  - clear Hw HV HA. unfold ed_add_vertices.
    assert (∀ n, ed_num_vertices (foldl (λ s v, let r := ed_add_vertex s.1 v in (r.1, if r.2 : bool then s.2 + 1 else s.2)) (g, n) vs).1 + n =
      ed_num_vertices g + (foldl (λ s v, let r := ed_add_vertex s.1 v in (r.1, if r.2 : bool then s.2 + 1 else s.2)) (g, n) vs).2) as HH; [|specialize (HH 0); rewrite Nat.add_0_r in HH; exact HH].
    revert g Hg. induction vs as [|v vs IH]; intros g Hg n; [done|]. cbn -[ed_add_vertex].
    destruct (ed_add_vertex_spec g v Hg) as (Hw & Hb & HV & _). rewrite Hb.
    assert (ed_num_vertices (ed_add_vertex g v).1 = ed_num_vertices g + (if ed_contains g v then 0 else 1)) as Hn.
    { rewrite !ed_num_vertices_spec. destruct (ed_contains g v) eqn:Hc; cbn [negb].
      - rewrite Nat.add_0_r. apply Permutation_length, NoDup_Permutation; [apply ed_vertices_nodup..|].
        intros x. rewrite !ed_vertices by done. rewrite HV. unfold dvtx. naive_solver.
      - rewrite Nat.add_1_r. change (S (length (vertices (ed_graph g)))) with (length (v :: vertices (ed_graph g))).
        apply Permutation_length, NoDup_Permutation; [apply ed_vertices_nodup|apply NoDup_cons; split; [|apply ed_vertices_nodup]|].
        + rewrite ed_vertices by done. unfold dvtx. by rewrite Hc.
        + intros x. rewrite elem_of_cons, !ed_vertices by done. rewrite HV. tauto. }
    specialize (IH _ Hw (if negb (ed_contains g v) then n + 1 else n)). destruct (ed_contains g v); cbn [negb] in *; lia.
Qed.

(** [add_arcs] adds the given arcs with their ends and returns how many were new. *)
Theorem C67_add_arcs g (es : list (N * N)) :
  ed_reachable g →
  ∃ h k, ed_add_arcs g es = Ok (h, k) ∧ ed_reachable h ∧
    (∀ x, ed_contains h x = true ↔ ed_contains g x = true ∨ ∃ e, e ∈ es ∧ (x = e.1 ∨ x = e.2)) ∧
    (∀ x y, ed_has_arc h x y = true ↔ ed_has_arc g x y = true ∨ (x, y) ∈ es) ∧
    ed_num_edges h = ed_num_edges g + k.
Proof.
  intros Hg%ed_reachable_wf. destruct (dadds_add_arcs es g Hg) as (h & ([h' k] & E & [= ->])%bind_ok & Hw & HV & HA).
  exists h, k. split_and!; [done|by apply ed_reachable_wf|exact HV|exact HA|].
  clear Hw HV HA. unfold ed_add_arcs in E.
  cut (∀ n, fold_res (λ s e, r ← ed_add_arc s.1 e.1 e.2; Ok (r.1, if r.2 : bool then s.2 + 1 else s.2)) es (g, n) = Ok (h, k) →
    ed_num_edges h + n = ed_num_edges g + k); [intros HH; specialize (HH 0 E); lia|]. clear E. revert g Hg.
  induction es as [|e es IH]; intros g Hg n; cbn -[ed_add_arc]; [intros [= -> ->]; lia|].
  destruct (ed_add_arc_spec g e.1 e.2 Hg) as (g' & E1 & Hw & _ & _ & Hm). rewrite E1. cbn -[ed_add_arc]. intros E.
  apply (IH g' Hw) in E. destruct (ed_has_arc g e.1 e.2); cbn [negb] in *; lia.
Qed.

Theorem C67_remove_loops g :
  ed_reachable g →
  ∃ g' k, ed_remove_loops g = Ok (g', k) ∧ ed_reachable g' ∧
    (∀ x, ed_contains g' x = true ↔ ed_contains g x = true) ∧
    (∀ x y, ed_has_arc g' x y = true ↔ ed_has_arc g x y = true ∧ x ≠ y) ∧
    (∃ X : gset N, (∀ x, x ∈ X ↔ ed_has_arc g x x = true) ∧ k = size X).
Proof.
  intros Hg%ed_reachable_wf. destruct (ed_remove_loops_spec g Hg) as (g' & k & ? & ? & H).
  exists g', k. split; [done|]. split; [by apply ed_reachable_wf|exact H].
Qed.

Theorem C67_remove_isolates g :
  ed_reachable g →
  ∃ g' k, ed_remove_isolates g = Ok (g', k) ∧ ed_reachable g' ∧
    (∀ x, ed_contains g' x = true ↔ ed_contains g x = true ∧
         ∃ y, ed_has_arc g x y = true ∨ ed_has_arc g y x = true) ∧
    (∀ x y, ed_has_arc g' x y = true ↔ ed_has_arc g x y = true) ∧
    (∃ X : gset N, (∀ x, x ∈ X ↔ ed_contains g x = true ∧
         ∀ y, ¬ ed_has_arc g x y = true ∧ ¬ ed_has_arc g y x = true) ∧ k = size X).
Proof.
  intros Hg%ed_reachable_wf. destruct (ed_remove_isolates_spec g Hg) as (g' & k & ? & ? & H).
  exists g', k. split; [done|]. split; [by apply ed_reachable_wf|exact H].
Qed.

(** ** C66: generators *)
(** The claim asks for the vertices 0 … n-1 whatever [n] is; the [_partial] theorems below
    describe the result exactly, including the degenerate sizes for which vertices are
    missing because only arcs are added. *)
Theorem C66_degenerate_refuted :
  ed_path 0 = Panic ∧
  (∃ h, ed_path 1 = Ok h ∧ ed_contains h 0 = false) ∧
  (∃ h, ed_clique 1 = Ok h ∧ ed_contains h 0 = false) ∧
  (∃ h, ed_grid 1 1 = Ok h ∧ ed_contains h 0 = false) ∧
  (∃ h, ed_star 0 = Ok h ∧ ed_contains h 0 = false).
Proof. split_and!; [reflexivity|..]; eexists; (split; [reflexivity|]); reflexivity. Qed.
Theorem C66_path_partial n : (0 < n)%N →
  ∃ h, ed_path n = Ok h ∧ ed_reachable h ∧
    (∀ x, ed_contains h x = true ↔ (1 < n ∧ x < n)%N) ∧
    (∀ x y, ed_has_arc h x y = true ↔ (y = x + 1 ∧ y < n)%N).
Proof.
  intros Hn. destruct (ed_path_spec n Hn) as (h & ? & ? & H). exists h. split; [done|].
  split; [by apply ed_reachable_wf|exact H].
Qed.
Theorem C66_cycle n :
  ∃ h, ed_cycle n = Ok h ∧ ed_reachable h ∧
    (∀ x, ed_contains h x = true ↔ (x < n)%N) ∧
    (∀ x y, ed_has_arc h x y = true ↔ (x < n ∧ y = (x + 1) mod n)%N).
Proof.
  destruct (ed_cycle_spec n) as (h & ? & ? & H). exists h. split; [done|].
  split; [by apply ed_reachable_wf|exact H].
Qed.
Theorem C66_matching n : (2 * n <= 4294967296)%N →
  ∃ h, ed_matching n = Ok h ∧ ed_reachable h ∧
    (∀ x, ed_contains h x = true ↔ (x < 2 * n)%N) ∧
    (∀ x y, ed_has_arc h x y = true ↔ (x < n ∧ y = x + n)%N).
Proof.
  intros Hn. destruct (ed_matching_spec n Hn) as (h & ? & ? & H). exists h. split; [done|].
  split; [by apply ed_reachable_wf|exact H].
Qed.
Theorem C66_clique_partial n :
  ∃ h, ed_clique n = Ok h ∧ ed_reachable h ∧
    (∀ x, ed_contains h x = true ↔ (1 < n ∧ x < n)%N) ∧
    (∀ x y, ed_has_arc h x y = true ↔ (x < y ∧ y < n)%N).
Proof.
  destruct (ed_clique_spec n) as (h & ? & ? & H). exists h. split; [done|].
  split; [by apply ed_reachable_wf|exact H].
Qed.
Theorem C66_independent n :
  ed_reachable (ed_independent n) ∧
  (∀ x, ed_contains (ed_independent n) x = true ↔ (x < n)%N) ∧
  (∀ x y, ed_has_arc (ed_independent n) x y = false).
Proof.
  destruct (ed_independent_spec n) as (? & HV & HA). split; [by apply ed_reachable_wf|].
  split; [exact HV|]. intros x y. apply not_true_is_false. apply HA.
Qed.
Theorem C66_biclique_partial s t : (s + t < 4294967296)%N →
  ∃ h, ed_biclique s t = Ok h ∧ ed_reachable h ∧
    (∀ x, ed_contains h x = true ↔ (0 < s ∧ 0 < t ∧ x < s + t)%N) ∧
    (∀ x y, ed_has_arc h x y = true ↔ (x < s ∧ s <= y ∧ y < s + t)%N).
Proof.
  intros Hn. destruct (ed_biclique_spec s t Hn) as (h & ? & ? & H). exists h. split; [done|].
  split; [by apply ed_reachable_wf|exact H].
Qed.
Theorem C66_star_partial n : (n + 1 < 4294967296)%N →
  ∃ h, ed_star n = Ok h ∧ ed_reachable h ∧
    (∀ x, ed_contains h x = true ↔ (0 < n ∧ x <= n)%N) ∧
    (∀ x y, ed_has_arc h x y = true ↔ (x = 0 ∧ 1 <= y ∧ y <= n)%N).
Proof.
  intros Hn. destruct (ed_biclique_spec 1 n) as (h & ? & ? & HV & HA); [lia|]. exists h. split; [done|].
  split; [by apply ed_reachable_wf|]. split.
  - intros x. rewrite (HV x). lia.
  - intros x y. rewrite (HA x y). lia.
Qed.
(** Row [r], column [c] has label [r * t + c]; arcs go right and down. *)
Theorem C66_grid_partial s t : (s * t < 4294967296)%N →
  ∃ h, ed_grid s t = Ok h ∧ ed_reachable h ∧
    (∀ x, ed_contains h x = true ↔ (x < s * t)%N ∧ (s * t ≠ 1)%N) ∧
    (∀ x y, ed_has_arc h x y = true ↔
       ∃ r c, (r < s)%N ∧ (c < t)%N ∧ (x = r * t + c)%N ∧
         ((y = r * t + (c + 1) ∧ c + 1 < t)%N ∨ (y = (r + 1) * t + c ∧ r + 1 < s)%N)).
Proof.
  intros Hn. destruct (ed_grid_spec s t Hn) as (h & ? & ? & H). exists h. split; [done|].
  split; [by apply ed_reachable_wf|exact H].
Qed.

End with_iter.

(** ** Concrete cases *)
Local Existing Instance std_iter.

(** A digraph with an antiparallel pair, a loop, an isolated vertex and removals. *)
Definition ex_dops : list edit_op :=
  [AddEdge 0 1; AddEdge 1 0; AddEdge 1 2; AddEdge 2 2; AddVertex 9; AddEdge 5 1; RemoveEdge 5 1;
   AddEdge 3 4; RemoveVertex 4; AddEdge 0 1; RemoveEdge 7 7]%N.

Example ex_C16_run : (r ← ed_run ed_new ex_dops; Ok r.2) =
  Ok [true; true; true; true; true; true; true; true; true; false; false].
Proof. vm_compute. reflexivity. Qed.

(** Example state (not code): the digraph reached by [ex_dops]. *)
Definition ex_d : editdigraph :=
  match ed_run ed_new ex_dops with Ok (g, _) => g | _ => ed_new end.
(** Example state (not code): a digraph whose arcs all point to larger labels. *)
Definition ex_d2 : editdigraph :=
  match ed_run ed_new [AddEdge 0 1; AddEdge 0 2; AddEdge 2 2; AddVertex 5]%N with Ok (g, _) => g | _ => ed_new end.
Example ex_d_reachable : ed_reachable ex_d ∧ ed_reachable ex_d2.
Proof.
  split.
  - unfold ex_d. destruct (C16_run_total ex_dops) as (g & Hr). rewrite Hr. do 2 eexists. exact Hr.
  - unfold ex_d2. destruct (C16_run_total [AddEdge 0 1; AddEdge 0 2; AddEdge 2 2; AddVertex 5]%N) as (g & Hr).
    rewrite Hr. do 2 eexists. exact Hr.
Qed.
Example ex_C16_facts : ed_num_vertices ex_d = 6 ∧ ed_num_edges ex_d = 4 ∧ ed_has_arc ex_d 1 2 = true ∧
  ed_has_arc ex_d 2 1 = false ∧ ed_in_degree ex_d 2 = Ok 2 ∧ ed_out_degree ex_d 2 = Ok 1 ∧
  ed_degree ex_d 1 = 3 ∧ ed_contains ex_d 4 = false ∧ ed_in_degree ex_d 4 = Panic.
Proof. vm_compute. done. Qed.
(** A digraph closed under reversal, with arcs. *)
Example ex_C17_hyp : ∃ g, ed_reachable g ∧ ed_has_arc g 0 1 = true ∧
  (∀ x y, ed_has_arc g x y = true → ed_has_arc g y x = true).
Proof.
  destruct (C16_run_total [AddEdge 0 1; AddEdge 1 0; AddEdge 3 3]%N) as (g & Hr). exists g.
  pose proof (C16_queries _ _ _ Hr) as (_ & _ & _ & _ & _ & Ha & _). split_and!.
  - do 2 eexists. exact Hr.
  - apply Ha. cbn. set_solver.
  - intros x y. rewrite !Ha. cbn. set_solver.
Qed.
Example ex_C18 : (l ← arcs (ed_digraph ex_d); Ok (length l, bool_decide ((1, 2)%N ∈ l))) = Ok (4, true).
Proof. vm_compute. done. Qed.
Example ex_C19_hyp : (∀ u v, ed_has_arc ex_d2 u v = true → (u <= v)%N) ∧
  (∀ v, ed_contains ex_d2 v = true → (v < 6)%N) ∧
  (r ← ed_disj_union ex_d2 (ed_graph ex_d2); Ok (ed_has_arc r 6 8, ed_has_arc r 8 6, ed_contains r 11)) = Ok (true, false, true).
Proof.
  destruct (C16_run_total [AddEdge 0 1; AddEdge 0 2; AddEdge 2 2; AddVertex 5]%N) as (g & Hr).
  pose proof (C16_queries _ _ _ Hr) as (_ & _ & _ & _ & Hv & Ha & _).
  split_and!; [| |vm_compute; done]; unfold ex_d2; rewrite Hr.
  - intros u v. rewrite Ha. cbn. intros H.
    repeat (apply elem_of_union in H as [H|H]; [apply elem_of_singleton in H; simplify_eq; lia|]). set_solver.
  - intros v. rewrite Hv. cbn. set_unfold. lia.
Qed.
Example ex_C19_normalize : (r ← ed_normalize ex_d; Ok (ed_has_arc r.1 0 1, ed_has_arc r.1 1 0, r.2 !! 5%N))
  = Ok (true, false, Some 9%N).
Proof. vm_compute. done. Qed.
Example ex_C20 : ed_eq ex_d ex_d2 = false ∧ (h ← ed_clone ex_d; Ok (ed_eq h ex_d)) = Ok true.
Proof. vm_compute. done. Qed.
Example ex_C21 : (S ← out_neighbourhood (ed_digraph ex_d) [1]%N; Ok (elements S)) = Ok [0; 2]%N ∧
  (S ← in_neighbourhood (ed_digraph ex_d) [2]%N; Ok (elements S)) = Ok [1]%N ∧
  (m ← out_degrees (ed_digraph ex_d); Ok (m !! 1%N, m !! 4%N)) = Ok (Some 2, None) ∧
  (m ← in_degrees (ed_digraph ex_d); Ok (m !! 1%N, m !! 9%N)) = Ok (Some 1, Some 0).
Proof. vm_compute. done. Qed.
Example ex_C66 : (g ← ed_grid 2 3; Ok (ed_has_arc g 1 4, ed_has_arc g 4 1, ed_num_edges g)) = Ok (true, false, 7) ∧
  (g ← ed_cycle 4; Ok (ed_has_arc g 3 0, ed_num_edges g)) = Ok (true, 4) ∧
  (g ← ed_clique 4; Ok (ed_has_arc g 1 3, ed_num_edges g)) = Ok (true, 6).
Proof. vm_compute. done. Qed.
Example ex_C67_add : (ed_add_vertices ex_d2 [5; 7; 7; 0]%N).2 = 1 ∧
  (r ← ed_add_arcs ex_d2 [(0, 1); (1, 0); (8, 9); (8, 9)]%N; Ok (r.2, ed_num_edges r.1)) = Ok (2, 5).
Proof. vm_compute. split; reflexivity. Qed.
Example ex_C67 : (r ← ed_remove_loops ex_d; Ok (ed_num_edges r.1, r.2)) = Ok (3, 1) ∧
  (r ← ed_remove_isolates ex_d; Ok (ed_num_vertices r.1, r.2)) = Ok (3, 3).
Proof. vm_compute. done. Qed.

Print Assumptions C16_run_total.
Print Assumptions C16_queries.
Print Assumptions C16_absent_panics.
Print Assumptions C17_adjacent_exact.
Print Assumptions C17_neighbours_both_directions.
Print Assumptions C17_adjacent_undirected_partial.
Print Assumptions C17_adjacent_undirected_refuted.
Print Assumptions C18_arcs_drain.
Print Assumptions C19_disj_union_exact.
Print Assumptions C19_disj_union_partial.
Print Assumptions C19_disj_union_refuted.
Print Assumptions C19_normalize_exact.
Print Assumptions C19_normalize_partial.
Print Assumptions C19_normalize_refuted.
Print Assumptions C20_eq.
Print Assumptions C20_clone.
Print Assumptions C21_out_neighbourhood.
Print Assumptions C21_in_neighbourhood.
Print Assumptions C21_out_degrees.
Print Assumptions C21_in_degrees.
Print Assumptions C67_from_iter.
Print Assumptions C67_add_vertices.
Print Assumptions C67_add_arcs.
Print Assumptions C67_remove_loops.
Print Assumptions C67_remove_isolates.
Print Assumptions C66_degenerate_refuted.
Print Assumptions C66_path_partial.
Print Assumptions C66_cycle.
Print Assumptions C66_matching.
Print Assumptions C66_clique_partial.
Print Assumptions C66_independent.
Print Assumptions C66_biclique_partial.
Print Assumptions C66_star_partial.
Print Assumptions C66_grid_partial.
