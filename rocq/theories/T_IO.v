(** Claims about reading and writing (io.rs). *)
From Verif Require Import Base M_Graph M_Iterators M_EditGraph M_IO S_IO Spec S_Graph S_Multi P_EditGraph P_EditGraph2 P_Graph P_Iterators P_Adds P_IO
  T_EditGraph Examples.

Section with_iter.
Context `{HI : HashIter}.

(** ** How texts split into lines: uniquely. *)
Theorem C62_lines_unique (t : list N) : ∃ ls, text_lines t ls ∧ ∀ ls', text_lines t ls' → ls' = ls.
Proof. exists (io_lines t). split; [apply text_lines_io|]. intros ls' H. symmetry. by apply text_lines_det. Qed.

(** ** C62: the graph reader. *)
Theorem C62_accepts (t : list N) (ls : list (list N)) (es : list (N * N)) : text_lines t ls → Forall2 edge_line ls es →
  ∃ h, eg_load t = Ok (IoOk h) ∧ eg_reachable h ∧
    (∀ u, eg_contains h u = true ↔ ∃ e, e ∈ es ∧ (u = e.1 ∨ u = e.2)) ∧
    (∀ u v, eg_adjacent h u v = true ↔ (u, v) ∈ es ∨ (v, u) ∈ es).
Proof.
  intros Ht Hes. apply text_lines_det in Ht. unfold eg_load. rewrite Ht.
  pose proof (eg_load_lines_spec ls 0 eg_new) as Hspec.
  assert (eg_wf eg_new) as Hnew by (eexists; apply eg_new_rep). specialize (Hspec Hnew).
  destruct (eg_load_lines 0 eg_new ls) as [[h|e]| |]; [| |done|done].
  - destruct Hspec as (es' & Hes' & Hf). assert (es' = es) as ->.
    { clear -Hes Hes'. revert es' Hes'. induction Hes as [|l e ls es He Hes IH]; intros es' Hes'; inversion Hes'; subst; [done|].
      f_equal; [by eapply edge_line_fun|by apply IH]. }
    destruct (eg_add_edge_fold_spec es eg_new Hnew) as (h' & Hf' & Hwf & HV & HE). rewrite Hf in Hf'. injection Hf' as <-.
    exists h. split_and!; [done|by apply eg_reachable_wf| |].
    + intros u. etrans; [apply HV|]. split; [intros [H|?]; [done|done]|by right].
    + intros u v. etrans; [apply HE|]. split.
      * intros [H|(e & He & [<-|<-])]; [done|by left|by right].
      * intros [?|?]; right; [exists (u, v)|exists (v, u)]; auto.
  - exfalso. destruct Hspec as (es' & l & ls' & _ & Hd & Hbad & _).
    assert (ls !! length es' = Some l) as Hl by (rewrite <- (Nat.add_0_r (length es')), <- lookup_drop, Hd; done).
    eapply Forall2_lookup_l in Hes as (x & _ & Hx); [|exact Hl]. by apply (Hbad x).
Qed.

(** Otherwise the first malformed line is reported. *)
Theorem C62_rejects (t : list N) (ls : list (list N)) : text_lines t ls → (¬ ∃ es, Forall2 edge_line ls es) →
  ∃ i l e, eg_load t = Ok (IoErr e) ∧ ls !! i = Some l ∧ line_error l i e ∧
    (∀ x, ¬ edge_line l x) ∧ (∀ j l', j < i → ls !! j = Some l' → ∃ x, edge_line l' x).
Proof.
  intros Ht Hes. apply text_lines_det in Ht. unfold eg_load. rewrite Ht.
  pose proof (eg_load_lines_spec ls 0 eg_new) as Hspec.
  assert (eg_wf eg_new) as Hnew by (eexists; apply eg_new_rep). specialize (Hspec Hnew).
  destruct (eg_load_lines 0 eg_new ls) as [[h|e]| |]; [| |done|done].
  - destruct Hspec as (es' & Hes' & _). destruct Hes. by exists es'.
  - destruct Hspec as (es' & l & ls' & H1 & Hd & Hbad & He). exists (length es'), l, e. split_and!; [done| |done|done|].
    + by rewrite <- (Nat.add_0_r (length es')), <- lookup_drop, Hd.
    + intros j l' Hj Hl'. assert (take (length es') ls !! j = Some l') as Hl2 by (by rewrite lookup_take).
      eapply Forall2_lookup_l in H1 as (x & _ & Hx); [|exact Hl2]. by exists x.
Qed.
Theorem C62_accepts_iff (t : list N) (ls : list (list N)) : text_lines t ls →
  (∃ h, eg_load t = Ok (IoOk h)) ↔ ∃ es, Forall2 edge_line ls es.
Proof.
  intros Ht. split.
  - intros [h Hh]. apply text_lines_det in Ht. unfold eg_load in Hh. rewrite Ht in Hh.
    assert (eg_wf eg_new) as Hnew by (eexists; apply eg_new_rep). pose proof (eg_load_lines_spec ls 0 eg_new Hnew) as Hspec.
    rewrite Hh in Hspec. destruct Hspec as (es & Hes & _). by exists es.
  - intros [es Hes]. destruct (C62_accepts t ls es Ht Hes) as (h & Hh & _). by exists h.
Qed.

(** ** C74: the readers for vertex lists and vertex sets. *)
Theorem C74_vec_accepts (t : list N) (ls : list (list N)) (us : list N) : text_lines t ls →
  Forall2 vertex_line ls us → vec_load t = IoOk us ∧ vset_load t = IoOk (list_to_set us).
Proof.
  intros Ht Hus. apply text_lines_det in Ht. unfold vec_load, vset_load. rewrite Ht.
  rewrite (vset_load_lines_vec ls 0 ∅ []) by done. pose proof (vec_load_lines_spec ls 0 []) as Hspec.
  destruct (vec_load_lines 0 [] ls) as [r|e].
  - destruct Hspec as (us' & -> & Hus'). assert (us' = us) as ->; [|done].
    clear -Hus Hus'. revert us' Hus'. induction Hus as [|l e ls es He Hes IH]; intros es' Hes'; inversion Hes'; subst; [done|].
    f_equal; [by eapply vertex_line_fun|by apply IH].
  - exfalso. destruct Hspec as (es' & l & ls' & _ & Hd & Hbad & _).
    assert (ls !! length es' = Some l) as Hl by (rewrite <- (Nat.add_0_r (length es')), <- lookup_drop, Hd; done).
    eapply Forall2_lookup_l in Hus as (x & _ & Hx); [|exact Hl]. by apply (Hbad x).
Qed.
Theorem C74_vec_rejects (t : list N) (ls : list (list N)) : text_lines t ls → (¬ ∃ us, Forall2 vertex_line ls us) →
  ∃ i l a, vec_load t = IoErr (BadVertex a i) ∧ vset_load t = IoErr (BadVertex a i) ∧ ls !! i = Some l ∧
    (∀ u, ¬ vertex_line l u) ∧ (∀ j l', j < i → ls !! j = Some l' → ∃ u, vertex_line l' u).
Proof.
  intros Ht Hus. apply text_lines_det in Ht. unfold vec_load, vset_load. rewrite Ht.
  rewrite (vset_load_lines_vec ls 0 ∅ []) by done. pose proof (vec_load_lines_spec ls 0 []) as Hspec.
  destruct (vec_load_lines 0 [] ls) as [r|e].
  - destruct Hspec as (us' & -> & Hus'). destruct Hus. by exists us'.
  - destruct Hspec as (es' & l & ls' & H1 & Hd & Hbad & a & ->). exists (length es'), l, a. split_and!; [done|done| |done|].
    + by rewrite <- (Nat.add_0_r (length es')), <- lookup_drop, Hd.
    + intros j l' Hj Hl'. assert (take (length es') ls !! j = Some l') as Hl2 by (by rewrite lookup_take).
      eapply Forall2_lookup_l in H1 as (x & _ & Hx); [|exact Hl2]. by exists x.
Qed.

(** ** C60: vertex lists and sets survive writing and reading. *)
Lemma written_vertices l : (∀ x, x ∈ l → (x < u32_mod)%N) → 
  text_lines (foldl (λ t u, t ++ fmt_u32 u ++ [10%N]) [] l) (fmt_u32 <$> l) ∧ Forall2 vertex_line (fmt_u32 <$> l) l.
Proof.
  intros Hl. split.
  - apply (write_lines fmt_u32). intros x _. split; intros Hc%fmt_u32_no_lf; lia.
  - apply Forall2_fmap_l, Forall_Forall2_diag, Forall_forall. intros x Hx. exists [], (fmt_u32 x), [].
    rewrite app_nil_r. split_and!; [done|done|done|]. by apply fmt_u32_denotes, Hl.
Qed.
Theorem C60_vec_roundtrip (l : list N) : (∀ x, x ∈ l → (x < u32_mod)%N) → vec_load (vec_write l) = IoOk l.
Proof. intros Hl. destruct (written_vertices l Hl) as [H1 H2]. by destruct (C74_vec_accepts _ _ _ H1 H2). Qed.
Theorem C60_set_roundtrip (s : gset N) : (∀ x, x ∈ s → (x < u32_mod)%N) → vset_load (vset_write s) = IoOk s.
Proof.
  intros Hs. destruct (written_vertices (hash_iter 60 s)) as [H1 H2]; [intros x; rewrite elem_of_hash_iter; auto|].
  destruct (C74_vec_accepts _ _ _ H1 H2) as [_ H]. unfold vset_write. rewrite H. f_equal. apply set_eq. intros x.
  by rewrite elem_of_list_to_set, elem_of_hash_iter.
Qed.

(** Writing and reading, for any implementation of the trait whose [adjacent] is symmetric. *)
Lemma roundtrip_weak (G : graph) : weak_wf G → (∀ u, contains G u = true → (u < u32_mod)%N) →
  ∃ t h, graph_write G = Ok t ∧ eg_load t = Ok (IoOk h) ∧ eg_reachable h ∧
    (∀ u v, eg_adjacent h u v = adjacent G u v) ∧
    (∀ u, eg_contains h u = true ↔ ∃ v, adjacent G u v = true).
Proof.
  intros Hwf Hb. destruct (edges_weak G Hwf) as (es & Hes & Hin). unfold graph_write. rewrite Hes. cbn [mbind res_bind].
  set (f := λ e : N * N, fmt_u32 e.1 ++ [32%N] ++ fmt_u32 e.2).
  assert (∀ e, e ∈ es → (e.1 < u32_mod ∧ e.2 < u32_mod)%N) as Hlt.
  { intros [u v] He. apply Hin in He as [_ Ha]. split; apply Hb; [by apply (ww_adj_vtx G Hwf u v)|].
    apply (ww_adj_vtx G Hwf v u). by apply (ww_adj_sym G Hwf). }
  assert (text_lines (foldl (λ t e, t ++ fmt_u32 e.1 ++ [32%N] ++ fmt_u32 e.2 ++ [10%N]) [] es) (f <$> es)) as Ht.
  { assert (∀ t0, foldl (λ t e, t ++ fmt_u32 e.1 ++ [32%N] ++ fmt_u32 e.2 ++ [10%N]) t0 es = foldl (λ t e, t ++ f e ++ [10%N]) t0 es) as ->.
    { clear. induction es as [|e es IH]; intros t0; [done|]. cbn [foldl]. rewrite IH. unfold f. by rewrite <- !app_assoc. }
    apply write_lines. intros e _. unfold f. rewrite !elem_of_app, !elem_of_list_singleton.
    split; intros [Hc%fmt_u32_no_lf|[Hc|Hc%fmt_u32_no_lf]]; lia. }
  assert (Forall2 edge_line (f <$> es) es) as Hel.
  { apply Forall2_fmap_l, Forall_Forall2_diag, Forall_forall. intros e He. destruct (Hlt e He) as [H1 H2].
    apply fmt_u32_denotes in H1 as D1. apply fmt_u32_denotes in H2 as D2. exists (fmt_u32 e.1), (fmt_u32 e.2). split; [|done].
    destruct (denotes_nows _ _ D1) as [? ?]. destruct (denotes_nows _ _ D2) as [? ?].
    exists [], [32%N], []. rewrite <- !nows_blank, app_nil_r. split_and!; try done. constructor; [|done]. by apply is_whitespace_spec. }
  destruct (C62_accepts _ _ _ Ht Hel) as (h & Hh & Hr & HV & HE). eexists _, h. split_and!; [done|exact Hh|done| |].
  - intros u v. apply eq_true_iff_eq. rewrite HE, !Hin. unfold adj. destruct (N.le_ge_cases u v) as [Hle|Hle].
    + split; [|by left]. intros [[_ ?]|[_ Ha]]; [done|]. by apply (ww_adj_sym G Hwf).
    + split; [|right; split; [lia|by apply (ww_adj_sym G Hwf)]]. intros [[_ ?]|[_ Ha]]; [done|]. by apply (ww_adj_sym G Hwf).
  - intros u. rewrite HV. split.
    + intros ([a b] & He & [->| ->]); apply Hin in He as [_ Ha]; cbn [fst snd]; [by exists b|]. exists a. by apply (ww_adj_sym G Hwf).
    + intros [v Ha]. destruct (N.le_ge_cases u v) as [Hle|Hle].
      * exists (u, v). split; [by apply Hin|by left].
      * exists (v, u). split; [apply Hin; split; [lia|by apply (ww_adj_sym G Hwf)]|by right].
Qed.
(** ** C61: graphs.  Writing any graph and reading it back keeps exactly the edges and the
    vertices on edges; isolated vertices are lost.  Partial: the full claim needs these too. *)
Theorem C61_roundtrip_partial (G : graph) : graph_wf G → (∀ u, contains G u = true → (u < u32_mod)%N) →
  ∃ t h, graph_write G = Ok t ∧ eg_load t = Ok (IoOk h) ∧ eg_reachable h ∧
    (∀ u v, eg_adjacent h u v = adjacent G u v) ∧
    (∀ u, eg_contains h u = true ↔ ∃ v, adjacent G u v = true).
Proof. intros Hwf. by apply roundtrip_weak, graph_wf_weak. Qed.
(** The graph read back is equal exactly if there are no isolated vertices. *)
Theorem C61_equal_iff_partial (g : editgraph) : eg_reachable g → (∀ u, eg_contains g u = true → (u < u32_mod)%N) →
  ∃ t h, graph_write (eg_graph g) = Ok t ∧ eg_load t = Ok (IoOk h) ∧ eg_reachable h ∧
    (eg_eq h g = true ↔ ∀ u, eg_contains g u = true → ∃ v, eg_adjacent g u v = true).
Proof.
  intros Hg Hb. assert (graph_wf (eg_graph g)) as Hwf by (by apply eg_graph_wf, eg_reachable_wf).
  destruct (C61_roundtrip_partial (eg_graph g) Hwf Hb) as (t & h & Ht & Hh & Hr & HE & HV). exists t, h. split_and!; [done|done|done|].
  rewrite (C04_eq_is_graph_equality h g Hr Hg). split.
  - intros [Hc _] u Hu. rewrite <- Hc in Hu. by apply HV.
  - intros Hiso. split; [|exact HE]. intros u. apply eq_true_iff_eq. rewrite HV. split; [|apply Hiso].
    intros [v Ha]. by apply (wf_adj_vtx _ Hwf u v).
Qed.
End with_iter.

Local Existing Instance std_iter.

(** The full claim fails on a graph with an isolated vertex. *)
Theorem C61_roundtrip_refuted : ∃ g t h, eg_reachable g ∧ (∀ u, eg_contains g u = true → (u < u32_mod)%N) ∧
  graph_write (eg_graph g) = Ok t ∧ eg_load t = Ok (IoOk h) ∧ eg_eq h g = false.
Proof.
  destruct (C01_editgraph_refines [AddEdge 0 1; AddVertex 2]) as (g & Hg & HV & HE).
  assert (eg_reachable g) as Hr by (by eexists _, _).
  assert (∀ u, eg_contains g u = true → (u < u32_mod)%N) as Hb.
  { intros u Hu%HV. cbn in Hu. apply N.lt_trans with 3%N; [|done]. set_solver by lia. }
  destruct (C61_equal_iff_partial g Hr Hb) as (t & h & Ht & Hh & _ & Heq). exists g, t, h. split_and!; [done|done|done|done|].
  apply not_true_is_false. rewrite Heq. intros Hiso.
  destruct (Hiso 2%N) as [v Hv]; [apply HV; cbn; set_solver|]. apply HE in Hv. unfold a_adj in Hv. cbn in Hv.
  apply elem_of_union in Hv as [Hv%elem_of_singleton|Hv]; [|set_solver].
  unfold upair in Hv. destruct (2 <=? v)%N; change (if (0 <=? 1)%N then (0, 1)%N else (1, 0)%N) with (0, 1)%N in Hv; congruence.
Qed.

(** Concrete cases: an edge list with CRLF, tabs, a plus sign, a loop and an unterminated last line;
    a line with three tokens, a number that is too large, and a blank line. *)
Example ex_C62 :
  io_lines [49; 32; 50; 13; 10; 9; 43; 51; 9; 51; 10; 50; 160; 49]%N = [[49; 32; 50]; [9; 43; 51; 9; 51]; [50; 160; 49]]%N ∧
  match eg_load [49; 32; 50; 13; 10; 9; 43; 51; 9; 51; 10; 50; 160; 49]%N with
  | Ok (IoOk h) => eg_num_edges h = 2 ∧ eg_num_vertices h = 3 ∧ eg_adjacent h 2 1 = true ∧ eg_adjacent h 3 3 = true
  | _ => False
  end ∧
  eg_load [49; 32; 50; 10; 49; 32; 50; 32; 51]%N = Ok (IoErr (NotTwoTokens 1)) ∧
  eg_load [49; 32; 52; 50; 57; 52; 57; 54; 55; 50; 57; 54]%N = Ok (IoErr (BadVertex [52; 50; 57; 52; 57; 54; 55; 50; 57; 54]%N 0)) ∧
  eg_load [10]%N = Ok (IoErr (NotTwoTokens 0)).
Proof. vm_compute. split_and!; reflexivity. Qed.
Example ex_C62_lines : text_lines [49; 32; 50; 13; 10; 50; 9; 49]%N [[49; 32; 50]; [50; 9; 49]]%N ∧
  Forall2 edge_line [[49; 32; 50]; [50; 9; 49]]%N [(1, 2); (2, 1)]%N.
Proof.
  split; [apply (text_lines_io [49; 32; 50; 13; 10; 50; 9; 49]%N)|].
  repeat constructor; apply edge_line_split; eexists _, _; (split; [vm_compute; reflexivity|split; apply parse_u32_spec; vm_compute; reflexivity]).
Qed.
Example ex_C60 : vec_write [0; 4294967295; 7]%N = [48; 10; 52; 50; 57; 52; 57; 54; 55; 50; 57; 53; 10; 55; 10]%N ∧
  vec_load [48; 10; 52; 50; 57; 52; 57; 54; 55; 50; 57; 53; 10; 55; 10]%N = IoOk [0; 4294967295; 7]%N.
Proof. vm_compute. split; reflexivity. Qed.
Example ex_C74 : vec_load [32; 49; 13; 10; 43; 50; 9]%N = IoOk [1; 2]%N ∧ vec_load [49; 10; 10; 50]%N = IoErr (BadVertex [] 1) ∧
  vec_load [45; 49]%N = IoErr (BadVertex [45; 49]%N 0).
Proof. vm_compute. split_and!; reflexivity. Qed.
Example ex_C61 : (t ← graph_write (eg_graph (ex_edit [(1, 0); (2, 2)]%N)); Ok t) = Ok [48; 32; 49; 10; 50; 32; 50; 10]%N.
Proof. vm_compute. reflexivity. Qed.

Print Assumptions C62_lines_unique.
Print Assumptions C62_accepts.
Print Assumptions C62_rejects.
Print Assumptions C62_accepts_iff.
Print Assumptions C74_vec_accepts.
Print Assumptions C74_vec_rejects.
Print Assumptions C60_vec_roundtrip.
Print Assumptions C60_set_roundtrip.
Print Assumptions C61_roundtrip_partial.
Print Assumptions C61_equal_iff_partial.
Print Assumptions C61_roundtrip_refuted.
