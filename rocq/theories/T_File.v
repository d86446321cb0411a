(** Claims about files (io.rs): choice of the reader, round trips, and bytes that are not text. *)
From Verif Require Import Base M_Graph M_Iterators M_EditGraph M_IO M_File S_IO S_File Spec S_Graph P_EditGraph P_EditGraph2 P_Graph P_Iterators P_IO P_File
  T_EditGraph T_IO Examples.

(** ** C76: what is read is decided by the text the bytes encode. *)
Theorem C76_encoded_text (t : list N) : Forall scalar t →
  eg_from_buf (Reader (utf8 t) true) = eg_load t ∧ vec_from_buf (Reader (utf8 t) true) = Ok (vec_load t) ∧
  vset_from_buf (Reader (utf8 t) true) = Ok (vset_load t).
Proof.
  intros Ht. unfold eg_from_buf, vec_from_buf, vset_from_buf. rewrite rd_lines_utf8 by done.
  rewrite <- (app_nil_r (Some <$> io_lines t)). rewrite eg_read_prefix, vec_read_prefix, vset_read_prefix by (by left).
  unfold eg_load, vec_load, vset_load. split_and!.
  - by destruct (eg_load_lines 0 eg_new (io_lines t)) as [[?|?]| |].
  - by destruct (vec_load_lines 0 [] (io_lines t)).
  - by destruct (vset_load_lines 0 ∅ (io_lines t)).
Qed.

(** A loader panics exactly if an unreadable line comes before every malformed one; otherwise it
    returns a graph or an error.  Partial: the claim is that it never panics. *)
Theorem C76_graph_partial (r : reader) :
  (eg_from_buf r = Panic ↔ unreadable_after (λ t, ∃ e, edge_line t e) (rd_bytes r) (rd_ok r)) ∧ eg_from_buf r ≠ Diverge.
Proof.
  destruct r as [bs ok]. cbn [rd_bytes rd_ok]. unfold eg_from_buf.
  destruct (option_prefix (rd_lines (Reader bs ok))) as (ts & rest & E & Hrest). rewrite (prefix_unreadable _ _ _ _ _ E Hrest), E.
  rewrite eg_read_prefix by done. assert (eg_wf eg_new) as Hnew by (eexists; apply eg_new_rep).
  pose proof (eg_load_lines_spec ts 0 eg_new Hnew) as Hspec. destruct (eg_load_lines 0 eg_new ts) as [[h|e]| |]; [| |done|done].
  - destruct Hspec as (es & Hes & _). split; [|by destruct rest]. split.
    + intros H. split; [by intros ->|]. apply Forall_lookup. intros i t Ht. eapply Forall2_lookup_l in Hes as (x & _ & Hx); [|exact Ht]. by exists x.
    + intros [Hne _]. by destruct rest.
  - split; [|done]. split; [done|]. intros [_ Hg]. destruct Hspec as (es & l & ls' & _ & Hd & Hbad & _).
    assert (ts !! length es = Some l) as Hl by (rewrite <- (Nat.add_0_r (length es)), <- lookup_drop, Hd; done).
    eapply Forall_lookup_1 in Hg as [x Hx]; [|exact Hl]. by destruct (Hbad x).
Qed.
Theorem C76_vertices_partial (r : reader) :
  (vec_from_buf r = Panic ↔ unreadable_after (λ t, ∃ u, vertex_line t u) (rd_bytes r) (rd_ok r)) ∧ vec_from_buf r ≠ Diverge ∧
  (vset_from_buf r = Panic ↔ unreadable_after (λ t, ∃ u, vertex_line t u) (rd_bytes r) (rd_ok r)) ∧ vset_from_buf r ≠ Diverge.
Proof.
  destruct r as [bs ok]. cbn [rd_bytes rd_ok]. unfold vec_from_buf, vset_from_buf.
  destruct (option_prefix (rd_lines (Reader bs ok))) as (ts & rest & E & Hrest). rewrite (prefix_unreadable _ _ _ _ _ E Hrest), E.
  rewrite vec_read_prefix, vset_read_prefix by done. rewrite (vset_load_lines_vec ts 0 ∅ []) by done.
  pose proof (vec_load_lines_spec ts 0 []) as Hspec. destruct (vec_load_lines 0 [] ts) as [h|e].
  - destruct Hspec as (us & _ & Hus). assert (Forall (λ t, ∃ u, vertex_line t u) ts) as Hg.
    { apply Forall_lookup. intros i t Ht. eapply Forall2_lookup_l in Hus as (x & _ & Hx); [|exact Ht]. by exists x. }
    destruct rest; [|by split_and!]. split_and!; try done; (split; [done|]; by intros [Hne _]).
  - assert (¬ Forall (λ t, ∃ u, vertex_line t u) ts) as Hg.
    { intros Hg. destruct Hspec as (es & l & ls' & _ & Hd & Hbad & _).
      assert (ts !! length es = Some l) as Hl by (rewrite <- (Nat.add_0_r (length es)), <- lookup_drop, Hd; done).
      eapply Forall_lookup_1 in Hg as [x Hx]; [|exact Hl]. by destruct (Hbad x). }
    split_and!; try done; (split; [done|]; by intros [_ ?]).
Qed.
(** The full claim fails: a file with the single byte 255, and a directory. *)
Theorem C76_refuted : eg_from_buf (Reader [255%N] true) = Panic ∧ vec_from_buf (Reader [255%N] true) = Panic ∧
  vset_from_buf (Reader [255%N] true) = Panic ∧ eg_from_buf (Reader [] false) = Panic.
Proof. done. Qed.

Section with_gzip.
Context (gz_enc : list N → list N) (gz_dec : reader → reader).
Notation from_gzipped := (from_gzipped gz_dec).
Notation from_file := (from_file gz_dec).
Notation write_gzipped := (write_gzipped gz_enc).

(** ** C75: [from_file] chooses by the extension. *)
Theorem C75_dispatch {A} (from_buf : reader → res (io A)) (fs : fsys) (name : list N) :
  (has_extension name s_txt → from_file from_buf fs name = from_txt from_buf fs name) ∧
  (has_extension name s_gz → from_file from_buf fs name = from_gzipped from_buf fs name) ∧
  (¬ has_extension name s_txt → ¬ has_extension name s_gz → from_file from_buf fs name = Ok (FErr BadName)) ∧
  (fs !! name = None → from_txt from_buf fs name = Ok (FErr OpenFailed) ∧ from_gzipped from_buf fs name = Ok (FErr OpenFailed)).
Proof.
  unfold M_File.from_file, from_txt, M_File.from_gzipped, open_reader, open_reader_txt, open_reader_gzip. split_and!.
  - intros H%extension_spec. rewrite H. by rewrite bool_decide_eq_true_2.
  - intros H%extension_spec. rewrite H. rewrite bool_decide_eq_false_2 by done. by rewrite bool_decide_eq_true_2.
  - intros H1 H2. destruct (extension name) as [e|] eqn:E; [|done].
    rewrite bool_decide_eq_false_2 by (intros ->; by apply H1, extension_spec). by rewrite bool_decide_eq_false_2 by (intros ->; by apply H2, extension_spec).
  - by intros ->.
Qed.

Context (gz_law : ∀ bs, gz_dec (Reader (gz_enc bs) true) = Reader bs true).
Context `{HI : HashIter}.

(** Reading back what was written as [t]. *)
Lemma read_back {A} (from_buf : reader → res (io A)) (fs : fsys) name t a : from_buf (Reader t true) = Ok (IoOk a) →
  from_txt from_buf (write_txt fs name t) name = Ok (FOk a) ∧ from_gzipped from_buf (write_gzipped fs name t) name = Ok (FOk a) ∧
  (has_extension name s_txt → from_file from_buf (write_txt fs name t) name = Ok (FOk a)) ∧
  (has_extension name s_gz → from_file from_buf (write_gzipped fs name t) name = Ok (FOk a)).
Proof.
  intros H. assert (from_txt from_buf (write_txt fs name t) name = Ok (FOk a)) as H1.
  { unfold from_txt, open_reader_txt, write_txt. rewrite lookup_insert. cbn [load_with]. by rewrite H. }
  assert (from_gzipped from_buf (write_gzipped fs name t) name = Ok (FOk a)) as H2.
  { unfold M_File.from_gzipped, open_reader_gzip, M_File.write_gzipped. rewrite lookup_insert, gz_law. cbn [load_with]. by rewrite H. }
  split_and!; [done|done| |]; intros Hx; [rewrite <- H1|rewrite <- H2]; by apply C75_dispatch.
Qed.
Lemma ascii_written (l : list (list N)) : (∀ s, s ∈ l → Forall (λ c, c < 128)%N s) → Forall (λ c, c < 128)%N (foldl (λ t s, t ++ s ++ [10%N]) [] l).
Proof.
  intros Hl. assert (∀ t0, Forall (λ c, c < 128)%N t0 → Forall (λ c, c < 128)%N (foldl (λ t s, t ++ s ++ [10%N]) t0 l)) as H; [|by apply H].
  induction l as [|s l IH]; intros t0 Ht0; [done|]. cbn [foldl]. apply IH; [intros s' Hs'; apply Hl; by right|].
  rewrite !Forall_app. split_and!; [done|apply Hl; by left|by constructor].
Qed.
Lemma ascii_fmt x : Forall (λ c, c < 128)%N (fmt_u32 x).
Proof. destruct (fmt_u32_digits x) as (H & _). eapply Forall_impl; [exact H|]. intros c [_ Hc]. cbn. lia. Qed.
Lemma foldl_written {A} (f : A → list N) l : ∀ t0, foldl (λ t x, t ++ f x ++ [10%N]) t0 l = foldl (λ t s, t ++ s ++ [10%N]) t0 (f <$> l).
Proof. induction l as [|x l IH]; intros t0; [done|]. cbn [foldl fmap list_fmap]. apply IH. Qed.

Theorem C75_vec_file (fs : fsys) (name : list N) (l : list N) : (∀ x, x ∈ l → (x < u32_mod)%N) →
  from_txt vec_from_buf (write_txt fs name (vec_write l)) name = Ok (FOk l) ∧
  from_gzipped vec_from_buf (write_gzipped fs name (vec_write l)) name = Ok (FOk l) ∧
  (has_extension name s_txt → from_file vec_from_buf (write_txt fs name (vec_write l)) name = Ok (FOk l)) ∧
  (has_extension name s_gz → from_file vec_from_buf (write_gzipped fs name (vec_write l)) name = Ok (FOk l)).
Proof.
  intros Hl. apply read_back. assert (Forall (λ c, c < 128)%N (vec_write l)) as Ha.
  { unfold vec_write. rewrite (foldl_written fmt_u32). apply ascii_written. intros s (x & -> & _)%elem_of_list_fmap. apply ascii_fmt. }
  destruct (utf8_ascii _ Ha) as [E Hs]. rewrite <- E. destruct (C76_encoded_text _ Hs) as (_ & -> & _). by rewrite C60_vec_roundtrip.
Qed.
Theorem C75_set_file (fs : fsys) (name : list N) (s : gset N) : (∀ x, x ∈ s → (x < u32_mod)%N) →
  from_txt vset_from_buf (write_txt fs name (vset_write s)) name = Ok (FOk s) ∧
  from_gzipped vset_from_buf (write_gzipped fs name (vset_write s)) name = Ok (FOk s) ∧
  (has_extension name s_txt → from_file vset_from_buf (write_txt fs name (vset_write s)) name = Ok (FOk s)) ∧
  (has_extension name s_gz → from_file vset_from_buf (write_gzipped fs name (vset_write s)) name = Ok (FOk s)).
Proof.
  intros Hl. apply read_back. assert (Forall (λ c, c < 128)%N (vset_write s)) as Ha.
  { unfold vset_write. rewrite (foldl_written fmt_u32). apply ascii_written. intros t (x & -> & _)%elem_of_list_fmap. apply ascii_fmt. }
  destruct (utf8_ascii _ Ha) as [E Hs]. rewrite <- E. destruct (C76_encoded_text _ Hs) as (_ & _ & ->). by rewrite C60_set_roundtrip.
Qed.
(** Graphs: up to isolated vertices, which are not written (C61). *)
Theorem C75_graph_file_partial (fs : fsys) (name : list N) (G : graph) : graph_wf G → (∀ u, contains G u = true → (u < u32_mod)%N) →
  ∃ t h, graph_write G = Ok t ∧ eg_reachable h ∧
    (∀ u v, eg_adjacent h u v = adjacent G u v) ∧ (∀ u, eg_contains h u = true ↔ ∃ v, adjacent G u v = true) ∧
    from_txt eg_from_buf (write_txt fs name t) name = Ok (FOk h) ∧
    from_gzipped eg_from_buf (write_gzipped fs name t) name = Ok (FOk h) ∧
    (has_extension name s_txt → from_file eg_from_buf (write_txt fs name t) name = Ok (FOk h)) ∧
    (has_extension name s_gz → from_file eg_from_buf (write_gzipped fs name t) name = Ok (FOk h)).
Proof.
  intros Hwf Hb. destruct (C61_roundtrip_partial G Hwf Hb) as (t & h & Ht & Hh & Hr & HE & HV). exists t, h.
  assert (Forall (λ c, c < 128)%N t) as Ha.
  { unfold graph_write in Ht. destruct (edges G) as [es| |]; [|done|done]. cbn [mbind res_bind] in Ht. injection Ht as <-.
    assert (∀ t0, foldl (λ t e, t ++ fmt_u32 e.1 ++ [32%N] ++ fmt_u32 e.2 ++ [10%N]) t0 es =
      foldl (λ t e, t ++ (fmt_u32 e.1 ++ [32%N] ++ fmt_u32 e.2) ++ [10%N]) t0 es) as ->.
    { clear. induction es as [|e es IH]; intros t0; [done|]. cbn [foldl]. rewrite IH. by rewrite <- !app_assoc. }
    rewrite (foldl_written (λ e : N * N, fmt_u32 e.1 ++ [32%N] ++ fmt_u32 e.2)). apply ascii_written. intros s (x & -> & _)%elem_of_list_fmap.
    rewrite !Forall_app. split_and!; [apply ascii_fmt|by constructor|apply ascii_fmt]. }
  destruct (utf8_ascii _ Ha) as [E Hs]. split; [done|]. split; [done|]. split; [done|]. split; [done|]. apply read_back.
  rewrite <- E. destruct (C76_encoded_text _ Hs) as (-> & _). done.
Qed.
(** Writing leaves all other files alone. *)
Theorem C75_other_files {A} (from_buf : reader → res (io A)) (fs : fsys) (name name' bytes : list N) : name ≠ name' →
  from_txt from_buf (write_txt fs name bytes) name' = from_txt from_buf fs name' ∧
  from_gzipped from_buf (write_gzipped fs name bytes) name' = from_gzipped from_buf fs name' ∧
  from_file from_buf (write_txt fs name bytes) name' = from_file from_buf fs name'.
Proof.
  intros Hne. unfold M_File.from_file, from_txt, M_File.from_gzipped, open_reader, open_reader_txt, open_reader_gzip, write_txt, M_File.write_gzipped.
  by rewrite !lookup_insert_ne.
Qed.
(** A file whose text is malformed: every loader returns the error of its first malformed line. *)
Theorem C75_bad_graph_file (fs : fsys) (name : list N) (r : reader) (t : list N) (ls : list (list N)) : Forall scalar t → text_lines t ls →
  (¬ ∃ es, Forall2 edge_line ls es) →
  ∃ i l e, ls !! i = Some l ∧ line_error l i e ∧ (∀ x, ¬ edge_line l x) ∧ (∀ j l', j < i → ls !! j = Some l' → ∃ x, edge_line l' x) ∧
    (fs !! name = Some (Reader (utf8 t) true) → from_txt eg_from_buf fs name = Ok (FErr (BadData e)) ∧
       (has_extension name s_txt → from_file eg_from_buf fs name = Ok (FErr (BadData e)))) ∧
    (fs !! name = Some r → gz_dec r = Reader (utf8 t) true → from_gzipped eg_from_buf fs name = Ok (FErr (BadData e)) ∧
       (has_extension name s_gz → from_file eg_from_buf fs name = Ok (FErr (BadData e)))).
Proof.
  intros Ht Hls Hbad. destruct (C62_rejects t ls Hls Hbad) as (i & l & e & He & Hl & Hle & Hno & Hyes). exists i, l, e. split_and!; [done..| |].
  - intros Hf. assert (from_txt eg_from_buf fs name = Ok (FErr (BadData e))) as H1.
    { unfold from_txt, open_reader_txt. rewrite Hf. cbn [load_with]. destruct (C76_encoded_text t Ht) as (-> & _). by rewrite He. }
    split; [done|]. intros Hx. rewrite <- H1. by apply C75_dispatch.
  - intros Hf Hr. assert (from_gzipped eg_from_buf fs name = Ok (FErr (BadData e))) as H1.
    { unfold M_File.from_gzipped, open_reader_gzip. rewrite Hf, Hr. cbn [load_with]. destruct (C76_encoded_text t Ht) as (-> & _). by rewrite He. }
    split; [done|]. intros Hx. rewrite <- H1. by apply C75_dispatch.
Qed.
Theorem C75_bad_vertex_file (fs : fsys) (name : list N) (t : list N) (ls : list (list N)) : Forall scalar t → text_lines t ls →
  (¬ ∃ us, Forall2 vertex_line ls us) → fs !! name = Some (Reader (utf8 t) true) →
  ∃ i l a, ls !! i = Some l ∧ (∀ u, ¬ vertex_line l u) ∧ (∀ j l', j < i → ls !! j = Some l' → ∃ u, vertex_line l' u) ∧
    from_txt vec_from_buf fs name = Ok (FErr (BadData (BadVertex a i))) ∧ from_txt vset_from_buf fs name = Ok (FErr (BadData (BadVertex a i))).
Proof.
  intros Ht Hls Hbad Hf. destruct (C74_vec_rejects t ls Hls Hbad) as (i & l & a & He & He' & Hl & Hno & Hyes). exists i, l, a. split_and!; [done..| |];
    unfold from_txt, open_reader_txt; rewrite Hf; cbn [load_with];
    destruct (C76_encoded_text t Ht) as (_ & E1 & E2); [by rewrite E1, He|by rewrite E2, He'].
Qed.
End with_gzip.

(** Concrete cases.  [a/b.txt], [x.y.gz/./], and names without extension. *)
Example ex_extension : has_extension [97; 47; 98; 46; 116; 120; 116]%N s_txt ∧ has_extension [120; 46; 121; 46; 103; 122; 47; 46; 47]%N s_gz ∧
  extension [46; 116; 120; 116]%N = None ∧ extension [97; 46; 98; 47; 116; 120; 116]%N = None ∧ extension [97; 47; 46; 46]%N = None.
Proof. split_and!; [apply extension_spec; vm_compute; reflexivity|apply extension_spec; vm_compute; reflexivity|done|done|done]. Qed.
(** A codec that satisfies the law: a header byte, and failure without it. *)
Definition ex_gz_enc (bs : list N) : list N := 31%N :: bs.
Definition ex_gz_dec (r : reader) : reader := match rd_bytes r with 31%N :: bs => Reader bs (rd_ok r) | _ => Reader [] false end.
Example ex_C75 : (∀ bs, ex_gz_dec (Reader (ex_gz_enc bs) true) = Reader bs true) ∧
  from_file ex_gz_dec vec_from_buf (write_gzipped ex_gz_enc ∅ [97; 46; 103; 122]%N (vec_write [7; 42]%N)) [97; 46; 103; 122]%N = Ok (FOk [7; 42]%N) ∧
  from_txt vec_from_buf (write_txt ∅ [97]%N [49; 10; 120]%N) [97]%N = Ok (FErr (BadData (BadVertex [120]%N 1))) ∧
  from_gzipped ex_gz_dec vec_from_buf (write_txt ∅ [97]%N [49; 10]%N) [97]%N = Panic.
Proof. split; [done|]. vm_compute. split_and!; reflexivity. Qed.
(** The second line of the text "1 2;3" is no edge. *)
Example ex_C75_bad : Forall scalar [49; 32; 50; 10; 51]%N ∧ text_lines [49; 32; 50; 10; 51]%N [[49; 32; 50]; [51]]%N ∧
  from_txt eg_from_buf (write_txt ∅ [97]%N [49; 32; 50; 10; 51]%N) [97]%N = Ok (FErr (BadData (NotTwoTokens 1))).
Proof. split; [repeat constructor; unfold scalar; lia|]. split; [|vm_compute; reflexivity].
  destruct (C62_lines_unique [49; 32; 50; 10; 51]%N) as (ls & Hls & _). pose proof (text_lines_det _ _ Hls) as E. vm_compute in E. by rewrite <- E in Hls.
Qed.
(** An e-acute, a euro sign and U+1F600; the second line is malformed before the unreadable third. *)
Example ex_C76 : utf8 [233; 8364; 128512]%N = [195; 169; 226; 130; 172; 240; 159; 152; 128]%N ∧ Forall scalar [233; 8364; 128512]%N ∧
  vec_from_buf (Reader [49; 10; 195; 169; 10; 255]%N true) = Ok (IoErr (BadVertex [233]%N 1)) ∧
  vec_from_buf (Reader [49; 10; 50; 10; 255]%N true) = Panic ∧
  vec_from_buf (Reader [49; 194; 160; 13; 10]%N true) = Ok (IoOk [1]%N).
Proof.
  split; [vm_compute; reflexivity|]. split; [repeat constructor; unfold scalar; lia|]. vm_compute. split_and!; reflexivity.
Qed.

Print Assumptions C76_encoded_text.
Print Assumptions C76_graph_partial.
Print Assumptions C76_vertices_partial.
Print Assumptions C76_refuted.
Print Assumptions C75_dispatch.
Print Assumptions C75_bad_graph_file.
Print Assumptions C75_bad_vertex_file.
Print Assumptions C75_vec_file.
Print Assumptions C75_set_file.
Print Assumptions C75_graph_file_partial.
Print Assumptions C75_other_files.
