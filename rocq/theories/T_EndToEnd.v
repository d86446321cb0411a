(** Property theorem C86: from a graph, or from the text of an edge list, through the degeneracy
    ordering to a dominating set, with the quality of the result in terms of the degeneracy. *)
From Verif Require Import Base Spec M_Graph M_Iterators M_EditGraph M_Algorithms M_OrdGraph M_Linear M_Domset M_IO
  S_Graph S_Linear S_Reach S_IO P_Graph P_EditGraph P_EditGraph2 P_OrdGraph P_OrdGraph2 P_DegenGraph P_Linear P_Linear2 P_Wdist P_Domset P_Approx P_IO
  T_EditGraph T_Algorithms T_OrdGraph T_Linear T_Domset T_Approx T_IO Examples.

(** [G] is [d]-degenerate: every non-empty set of vertices has a member with at most [d] neighbours in the set. *)
Definition degenerate (G : graph) (d : nat) : Prop :=
  ∀ H : gset N, H ≠ ∅ → (∀ v, v ∈ H → contains G v = true) →
    ∃ v, v ∈ H ∧ ∀ l, NoDup l → (∀ u, u ∈ l → u ∈ H ∧ adjacent G v u = true) → length l ≤ d.
(** [X] consists of vertices and every vertex of [G] is in [X] or adjacent to a member. *)
Definition dominating (G : graph) (X : gset N) : Prop :=
  (∀ x, x ∈ X → contains G x = true) ∧
  ∀ v, contains G v = true → v ∈ X ∨ ∃ x, x ∈ X ∧ adjacent G x v = true.
(** The bound on left degrees that the bucket queue of degeneracy guarantees. *)
Definition queue_bound (d : nat) : nat := if decide (d ≤ 129) then d else 127 + 2 ^ (d - 128).

Lemma queue_bound_mono a b : a ≤ b → queue_bound a ≤ queue_bound b.
Proof.
  intros Hab. unfold queue_bound. repeat case_decide; [lia| |lia|].
  - assert (2 ^ 2 ≤ 2 ^ (b - 128)) as Hp by (apply Nat.pow_le_mono_r; lia).
    change (2 ^ 2) with 4 in Hp. lia.
  - assert (2 ^ (a - 128) ≤ 2 ^ (b - 128)) by (apply Nat.pow_le_mono_r; lia). lia.
Qed.

Section with_iter.
Context `{HI : HashIter}.

(** Left degrees in the OrdGraph built by degeneracy. *)
Lemma by_degeneracy_left' (G : graph) (d : nat) lo up order core : graph_wf G → loopless G →
  (∀ H k, H ≠ ∅ → min_degree G H k → k ≤ d) →
  degeneracy G = Ok (lo, up, order, core) → ∀ v l, left_of G order v l → length l ≤ queue_bound d.
Proof.
  intros Hwf Hl Hd Hdeg v l Hlo. destruct l as [|u0 l0] eqn:El; [cbn; lia|]. rewrite <- El in *.
  destruct (C23_degeneracy_order G Hwf Hl) as (lo' & up' & order' & core' & Hdeg' & _ & _ & Hcore).
  rewrite Hdeg in Hdeg'. injection Hdeg' as <- <- <- <-.
  assert (vtx G v) as Hv. { destruct Hlo as [_ Hlo]. destruct (Hlo u0) as [Ha _]; [rewrite El; left|]. by eapply (wf_adj_vtx _ Hwf). }
  apply Hcore in Hv as [c Hc].
  destruct (C24_core_attained G lo up order core v c Hwf Hl Hdeg Hc) as (H & HvH & Hm).
  assert (c ≤ d) as Hcd by (apply (Hd H); [set_solver|done]).
  destruct (C24_left_degree_partial G lo up order core v c l Hwf Hl Hdeg Hc Hlo) as (_ & H1 & H2).
  etrans; [|by apply queue_bound_mono]. unfold queue_bound. case_decide; [auto|]. apply H2. lia.
Qed.
Lemma degenerate_min_degree (G : graph) (d : nat) : degenerate G d → ∀ H k, H ≠ ∅ → min_degree G H k → k ≤ d.
Proof.
  intros Hd H k Hne Hm. destruct (Hd H) as (w & Hw & Hle); [done|intros x Hx; by apply (Hm x Hx)|].
  destruct (Hm w Hw) as (_ & lw & Hnd & Hlen & Hlw). etrans; [exact Hlen|]. by apply Hle.
Qed.
Lemma by_degeneracy_left (G : graph) (d : nat) lo up order core : graph_wf G → loopless G → degenerate G d →
  degeneracy G = Ok (lo, up, order, core) → ∀ v l, left_of G order v l → length l ≤ queue_bound d.
Proof. intros Hwf Hl Hd. apply by_degeneracy_left'; [done..|]. by apply degenerate_min_degree. Qed.

(** ** C86: the degeneracy ordering followed by domset with radius 1. *)
Theorem C86_graph (G : graph) (d : nat) : graph_wf G → loopless G → degenerate G d →
  ∃ g D dd, og_by_degeneracy G = Ok g ∧ domset (og_lgraph g) 1 false = Ok (D, dd, None) ∧ dominating G D ∧
    ∀ X, dominating G X → size D ≤ size X * ((queue_bound d + 1) * (queue_bound d + 5)).
Proof.
  intros Hwf Hl Hd. destruct (C34_by_degeneracy G Hwf Hl) as (g & lo & up & order & core & Hdeg & Hg & HL & Hvs & Hc & Ha).
  pose proof (by_degeneracy_left G d lo up order core Hwf Hl Hd Hdeg) as Hleft.
  assert (vertices (og_lgraph g) = order) as Hvs' by exact Hvs.
  assert (∀ u, contains (og_lgraph g) u = contains G u) as Hc' by exact Hc.
  assert (∀ u v, adjacent (og_lgraph g) u v = adjacent G u v) as Ha' by exact Ha. clear Hvs Hc Ha.
  remember (og_lgraph g) as L eqn:EL.
  destruct (C46_domset L 1 HL) as (D & dd & Hok & HD & Hdom); [vm_compute; reflexivity|].
  exists g, D, dd. rewrite <- EL. clear EL. split_and!; [done|exact Hok| |].
  - split; [intros x Hx; rewrite <- Hc'; by apply HD|]. intros v Hv. rewrite <- Hc' in Hv.
    destruct (Hdom v Hv) as (x & Hx & Hw). apply within_S_l in Hw as [->|(z & Hz & Hw)]; [by left|].
    apply within_0 in Hw as ->. right. exists x. split; [done|]. by rewrite <- Ha'.
  - intros X [HX1 HX2]. assert (size D ≤ size X * ((queue_bound d + 1) * (queue_bound d + 1 + 4 * 1 * 1))) as Hb; [|rewrite Hb; nia].
    unfold domset in Hok. eapply (C80_approximation L 1 false _ D dd None (queue_bound d) X HL); [|exact Hok|].
    + intros u l Hnd Hlw. apply (Hleft u l). split; [done|]. intros v Hv. destruct (Hlw v Hv) as (Hb & k & Hk & Hwk).
      rewrite <- Hvs'. split; [|done].
      destruct Hwk as ([|a [|b [|]]] & Hlen & Hh & Hla & Hwk & _); cbn in Hlen; try lia; cbn in Hh, Hla; simplify_eq.
      * by apply (ord_irrefl' _ _ (vs_nodup L HL)) in Hb.
      * destruct Hwk as [Hwk _]. unfold adj in *. by rewrite <- Ha'.
    + split; [intros x Hx; rewrite Hc'; by apply HX1|]. intros v _ Hv. rewrite Hc' in Hv.
      destruct (HX2 v Hv) as [Hx|(x & Hx & Hxv)].
      * exists v. split; [done|]. exists 0. split; [lia|constructor].
      * exists x. split; [done|]. exists 1. split; [lia|]. apply nsteps_once. unfold adj. by rewrite Ha'.
Qed.

(** The same from the text of an edge list: read it, drop the loops, order by degeneracy, dominate. *)
Definition es_graph_contains (es : list (N * N)) (u : N) : Prop := ∃ e, e ∈ es ∧ (u = e.1 ∨ u = e.2).
Definition es_graph_adj (es : list (N * N)) (u v : N) : Prop := u ≠ v ∧ ((u, v) ∈ es ∨ (v, u) ∈ es).
Definition es_dominating (es : list (N * N)) (X : gset N) : Prop :=
  (∀ x, x ∈ X → es_graph_contains es x) ∧
  ∀ v, es_graph_contains es v → v ∈ X ∨ ∃ x, x ∈ X ∧ es_graph_adj es x v.
Definition es_degenerate (es : list (N * N)) (d : nat) : Prop :=
  ∀ H : gset N, H ≠ ∅ → (∀ v, v ∈ H → es_graph_contains es v) →
    ∃ v, v ∈ H ∧ ∀ l, NoDup l → (∀ u, u ∈ l → u ∈ H ∧ es_graph_adj es v u) → length l ≤ d.

Theorem C86_text (t : list N) (ls : list (list N)) (es : list (N * N)) (d : nat) :
  text_lines t ls → Forall2 edge_line ls es → es_degenerate es d →
  ∃ h h' k g D dd, eg_load t = Ok (IoOk h) ∧ eg_remove_loops h = Ok (h', k) ∧ og_by_degeneracy (eg_graph h') = Ok g ∧
    domset (og_lgraph g) 1 false = Ok (D, dd, None) ∧ es_dominating es D ∧
    ∀ X, es_dominating es X → size D ≤ size X * ((queue_bound d + 1) * (queue_bound d + 5)).
Proof.
  intros Ht Hes Hd. destruct (C62_accepts t ls es Ht Hes) as (h & Hh & Hr & HV & HE).
  destruct (C08_remove_loops h Hr) as (h' & k & Hh' & Hr' & HV' & HE' & _).
  assert (∀ u, contains (eg_graph h') u = true ↔ es_graph_contains es u) as Hc.
  { intros u. etrans; [apply HV'|apply HV]. }
  assert (∀ u v, adjacent (eg_graph h') u v = true ↔ es_graph_adj es u v) as Ha.
  { intros u v. etrans; [apply HE'|]. rewrite HE. unfold es_graph_adj. naive_solver. }
  assert (graph_wf (eg_graph h')) as Hwf by (by apply eg_graph_wf, eg_reachable_wf).
  assert (loopless (eg_graph h')) as Hl. { intros u Hu. apply Ha in Hu as [? _]. done. }
  remember (eg_graph h') as G eqn:EG. clear HV HE HV' HE' Hr'.
  assert (∀ X, dominating G X ↔ es_dominating es X) as HX.
  { intros X. unfold dominating, es_dominating. setoid_rewrite Hc. setoid_rewrite Ha. done. }
  destruct (C86_graph G d Hwf Hl) as (g & D & dd & Hg & HD & Hdom & Hb).
  { intros H Hne HH. destruct (Hd H Hne) as (v & Hv & Hvl); [intros v Hv; by apply Hc, HH|].
    exists v. split; [done|]. intros l Hnd Hla. apply Hvl; [done|]. intros u Hu. destruct (Hla u Hu) as [? ?%Ha]. done. }
  exists h, h', k, g, D, dd. rewrite <- EG. split_and!; [done..|by apply HX|]. intros X ?%HX. by apply Hb.
Qed.
End with_iter.

(** ** Examples: the text of a cycle on six vertices with a loop and a doubled edge. *)
Local Existing Instance std_iter.
Definition ex_e2e_edges : list (N * N) := [(0, 1); (1, 2); (2, 3); (3, 4); (4, 5); (5, 0); (3, 3); (1, 0)]%N.
Definition ex_e2e_text : list N := flat_map (λ e : N * N, [48 + e.1; 32; 48 + e.2; 10]%N) ex_e2e_edges.
Definition ex_e2e_nbs (v : N) : list N :=
  remove_dups (flat_map (λ e : N * N, (if N.eqb e.1 v then [e.2] else []) ++ (if N.eqb e.2 v then [e.1] else []))
    (List.filter (λ e : N * N, negb (N.eqb e.1 e.2)) ex_e2e_edges)).
Example ex_C86_degenerate : es_degenerate ex_e2e_edges 2.
Proof.
  intros H Hne HH. destruct (set_choose_L H Hne) as (v & Hv). exists v. split; [done|]. intros l Hnd Hl.
  assert (length l ≤ length (ex_e2e_nbs v)) as Hle.
  { apply submseteq_length, NoDup_submseteq; [done|]. intros u Hu. destruct (Hl u Hu) as (_ & Hne' & He).
    unfold ex_e2e_nbs. rewrite elem_of_remove_dups. apply elem_of_list_In, in_flat_map. destruct He as [He|He].
    - exists (v, u). split; [apply filter_In; split; [by apply elem_of_list_In|]|]; cbn.
      + by apply negb_true_iff, N.eqb_neq.
      + rewrite N.eqb_refl. by left.
    - exists (u, v). split; [apply filter_In; split; [by apply elem_of_list_In|]|]; cbn.
      + by apply negb_true_iff, N.eqb_neq; intros ->.
      + rewrite N.eqb_refl. apply in_or_app. right. by left. }
  etrans; [exact Hle|]. destruct (HH v Hv) as (e & He & Hve). clear -He Hve.
  assert (v ∈ [0; 1; 2; 3; 4; 5]%N) as Hin.
  { unfold ex_e2e_edges in He. repeat (apply elem_of_cons in He as [->|He]; [cbn in Hve; destruct Hve as [->| ->]; apply elem_of_list_In; cbn; tauto|]).
    by apply elem_of_nil in He. }
  clear He Hve. repeat (apply elem_of_cons in Hin as [->|Hin]; [vm_compute; lia|]). by apply elem_of_nil in Hin.
Qed.
Example ex_C86_lines : text_lines ex_e2e_text (io_lines ex_e2e_text) ∧ Forall2 edge_line (io_lines ex_e2e_text) ex_e2e_edges.
Proof.
  split; [apply text_lines_io|]. vm_compute io_lines.
  repeat constructor; apply edge_line_split; eexists _, _; (split; [vm_compute; reflexivity|split; apply parse_u32_spec; vm_compute; reflexivity]).
Qed.
Example ex_C86 :
  match eg_load ex_e2e_text with
  | Ok (IoOk h) =>
      match (h' ← eg_remove_loops h; g ← og_by_degeneracy (eg_graph h'.1); domset (og_lgraph g) 1 false) with
      | Ok (D, _, _) => eg_num_edges h = 7 ∧ size D = 2
      | _ => False
      end
  | _ => False
  end ∧ queue_bound 2 = 2 ∧ queue_bound 131 = 135.
Proof. vm_compute. split_and!; reflexivity. Qed.

Print Assumptions C86_graph.
Print Assumptions C86_text.
