(** Property C97: the iterators over neighbourhoods. *)
From Verif Require Import Base Spec M_Graph M_Iterators M_EditGraph M_EditDigraph M_OrdGraph M_DTF M_DTFView M_DegenGraph M_ReachGraph
  M_Neighbourhoods S_Graph S_Digraph S_Linear S_Reach S_DTF P_Graph P_Iterators P_EditGraph P_EditGraph2 P_EditDigraph P_DegenGraph P_DegenGraph2
  P_Subdivide P_DTF P_DTF2 P_DTF6 T_EditGraph T_OrdGraph T_EditDigraph T_ReachGraph T_ReachAlg T_DTF Examples.

(** ** One iterator for all of them *)
Definition src_next (f : N → res (list N)) (vs : list N) : res (option (N * list N) * list N) :=
  match vs with [] => Ok (None, []) | v :: vs => l ← f v; Ok (Some (v, l), vs) end.

Lemma src_drains f (P : N → list N → Prop) vs : (∀ v, v ∈ vs → ∃ l, f v = Ok l ∧ P v l) →
  ∃ items, drains (src_next f) vs items ∧ items.*1 = vs ∧ ∀ v l, (v, l) ∈ items → v ∈ vs ∧ f v = Ok l ∧ P v l.
Proof.
  induction vs as [|v vs IH]; intros Hf.
  - exists []. split; [by econstructor|]. split; [done|]. intros ? ? H%elem_of_nil. done.
  - destruct IH as (items & Hd & Hk & Hi); [intros w Hw; apply Hf; by right|].
    destruct (Hf v) as (l & Hl & HP); [by left|]. exists ((v, l) :: items). split; [|split].
    + econstructor; [|exact Hd]. cbn. by rewrite Hl.
    + cbn. by rewrite Hk.
    + intros w l' [[= -> ->]|H]%elem_of_cons; [split_and!; [by left|done|done]|].
      apply Hi in H as (? & ? & ?). split_and!; [by right|done|done].
Qed.
Lemma src_panics f v vs items : v ∈ vs → f v = Panic → ¬ drains (src_next f) vs items.
Proof.
  intros Hv Hf Hd. remember vs as s eqn:Es. revert vs Es Hv.
  induction Hd as [s s' Hn|s s' x l Hn Hd IH]; intros vs -> Hv.
  - destruct vs as [|w vs]; [by apply elem_of_nil in Hv|]. cbn in Hn. destruct (f w); done.
  - destruct vs as [|w vs]; [by apply elem_of_nil in Hv|]. cbn in Hn. destruct (f w) as [lw| |] eqn:E; [|done..].
    cbn in Hn. injection Hn as <- <-. apply elem_of_cons in Hv as [->|Hv]; [congruence|]. by apply (IH vs).
Qed.
(** Once an iterator has ended it stays ended. *)
Lemma src_fused f s s' : src_next f s = Ok (None, s') → src_next f s' = Ok (None, s').
Proof. destruct s as [|v s]; cbn; [by intros [= <-]|]. destruct (f v); done. Qed.

(** The pairs listed by the rows. *)
Lemma rows_pairs (items : list (N * list N)) : NoDup items.*1 → (∀ v l, (v, l) ∈ items → NoDup l) →
  let ps := concat ((λ r : N * list N, pair r.1 <$> r.2) <$> items) in
  NoDup ps ∧ length ps = sum_map (λ r, length r.2) items ∧ ∀ v u, (v, u) ∈ ps ↔ ∃ l, (v, l) ∈ items ∧ u ∈ l.
Proof.
  induction items as [|[v l] items IH]; cbn; intros Hnd Hl.
  - split_and!; [constructor|done|]. intros v u. split; [by intros H%elem_of_nil|]. intros (l & H%elem_of_nil & _). done.
  - apply NoDup_cons in Hnd as [Hv Hnd]. destruct IH as (H1 & H2 & H3); [exact Hnd|intros w k Hw; apply (Hl w k); by right|].
    assert (∀ w u, (w, u) ∈ concat ((λ r : N * list N, pair r.1 <$> r.2) <$> items) → w ≠ v) as Hw.
    { intros w u (k & Hk & _)%H3 ->. apply Hv. apply elem_of_list_fmap. by exists (v, k). }
    split_and!.
    + apply NoDup_app. split_and!; [|  |exact H1].
      * apply NoDup_fmap_2; [by intros ? ? [=]|]. apply (Hl v l). by left.
      * intros [w u] Hin Hin'. apply elem_of_list_fmap in Hin as (x & [= -> ->] & _). by apply Hw in Hin'.
    + rewrite app_length, fmap_length, H2. done.
    + intros w u. rewrite elem_of_app, H3, elem_of_list_fmap. split.
      * intros [(x & [= -> ->] & Hx)|(k & Hk & Hu)]; [exists l; split; [by left|done]|exists k; split; [by right|done]].
      * intros (k & [[= -> ->]|Hk]%elem_of_cons & Hu); [left; by exists u|right; by exists k].
Qed.
Lemma rows_count (items : list (N * list N)) (l : list (N * N)) (f : N * N → N * N) : Inj (=) (=) f →
  NoDup items.*1 → (∀ v k, (v, k) ∈ items → NoDup k) → NoDup l →
  (∀ p, p ∈ l ↔ ∃ v u k, (v, k) ∈ items ∧ u ∈ k ∧ p = f (v, u)) →
  sum_map (λ r, length r.2) items = length l.
Proof.
  intros Hf Hk Hnd Hl Hp. destruct (rows_pairs items Hk Hnd) as (H1 & H2 & H3). rewrite <- H2.
  set (ps := concat _) in *. clearbody ps. rewrite <- (fmap_length f ps). apply Permutation_length, NoDup_Permutation.
  - by apply NoDup_fmap_2.
  - exact Hl.
  - intros p. rewrite Hp, elem_of_list_fmap. split.
    + intros ([v u] & -> & (k & ? & ?)%H3). by exists v, u, k.
    + intros (v & u & k & ? & ? & ->). exists (v, u). split; [done|]. apply H3. by exists k.
Qed.

(** ** Graphs *)
Theorem C97_neighbourhoods (G : graph) : graph_wf G →
  ∃ items, drains (neigh_next G) (ni_new G) items ∧ NoDup items.*1 ∧ (∀ v, v ∈ items.*1 ↔ contains G v = true) ∧
    (∀ v l, (v, l) ∈ items → NoDup l ∧ (∀ u, u ∈ l ↔ adjacent G v u = true) ∧
       degree G v = length l + if adjacent G v v then 1 else 0) ∧
    sum_map (λ r, length r.2) items + length (filter (λ v, adjacent G v v = true) (vertices G)) = 2 * num_edges G.
Proof.
  intros HG. destruct (src_drains (neighbours G) (λ v l, NoDup l ∧ (∀ u, u ∈ l ↔ adjacent G v u = true) ∧
       degree G v = length l + if adjacent G v v then 1 else 0) (vertices G)) as (items & Hd & Hk & Hi).
  { intros v Hv. destruct (wf_neighbours G HG v) as (l & Hl & ? & ? & ?); [by apply (wf_vertices G HG)|]. by exists l. }
  exists items. split; [exact Hd|]. rewrite Hk. split_and!.
  - apply (wf_vertices_nodup G HG).
  - apply (wf_vertices G HG).
  - intros v l Hv. by apply Hi.
  - rewrite <- (graph_handshake G HG), <- Hk. clear Hd Hk. induction items as [|[v l] items IH]; [done|].
    unfold sum_map in *. rewrite !fmap_cons. cbn [fst snd fmap list_fmap sum_list]. rewrite filter_cons. destruct (Hi v l) as (_ & _ & _ & _ & Hdeg); [by left|].
    assert (∀ v l, (v, l) ∈ items → v ∈ vertices G ∧ neighbours G v = Ok l ∧ NoDup l ∧ (∀ u, u ∈ l ↔ adjacent G v u = true) ∧
      degree G v = length l + (if adjacent G v v then 1 else 0)) as Hi' by (intros w k Hw; apply Hi; by right).
    specialize (IH Hi'). rewrite Hdeg. destruct (decide (adjacent G v v = true)) as [E|E]; [rewrite E|apply not_true_is_false in E; rewrite E]; cbn [length id]; lia.
Qed.

(** ** Digraphs *)
Section with_iter.
Context `{HI : HashIter}.

Theorem C97_in_out (g : editdigraph) : ed_reachable g →
  ∃ ins outs, drains (dn_next (ed_digraph g) DiIn) (dn_new (ed_digraph g)) ins ∧
    drains (dn_next (ed_digraph g) DiOut) (dn_new (ed_digraph g)) outs ∧
    ins.*1 = outs.*1 ∧ NoDup ins.*1 ∧ (∀ v, v ∈ ins.*1 ↔ ed_contains g v = true) ∧
    (∀ v l, (v, l) ∈ ins → NoDup l ∧ (∀ u, u ∈ l ↔ ed_has_arc g u v = true) ∧ ed_in_degree g v = Ok (length l)) ∧
    (∀ v l, (v, l) ∈ outs → NoDup l ∧ (∀ u, u ∈ l ↔ ed_has_arc g v u = true) ∧ ed_out_degree g v = Ok (length l)) ∧
    sum_map (λ r, length r.2) ins = ed_num_edges g ∧ sum_map (λ r, length r.2) outs = ed_num_edges g.
Proof.
  intros Hg%ed_reachable_wf.
  assert (∀ v, v ∈ vertices (ed_graph g) ↔ dvtx g v) as Hvs.
  { intros v. by apply ed_vertices. }
  destruct (src_drains (ed_in_neighbours g) (λ v l, NoDup l ∧ (∀ u, u ∈ l ↔ darc g u v) ∧ ed_in_degree g v = Ok (length l))
    (vertices (ed_graph g))) as (ins & Hd & Hk & Hi).
  { intros v Hv%Hvs. destruct (ed_in_neighbours_spec g v Hg Hv) as (l & ? & ? & ? & ? & _). by exists l. }
  destruct (src_drains (ed_out_neighbours g) (λ v l, NoDup l ∧ (∀ u, u ∈ l ↔ darc g v u) ∧ ed_out_degree g v = Ok (length l))
    (vertices (ed_graph g))) as (outs & Hd' & Hk' & Hi').
  { intros v Hv%Hvs. destruct (ed_out_neighbours_spec g v Hg Hv) as (l & ? & ? & ? & ? & _). by exists l. }
  assert (NoDup (vertices (ed_graph g))) as Hnd by apply NoDup_hash_iter.
  exists ins, outs. rewrite Hk, Hk'. split; [exact Hd|]. split; [exact Hd'|]. split; [done|]. split; [exact Hnd|].
  split; [exact Hvs|]. split; [intros v l H; by apply Hi|]. split; [intros v l H; by apply Hi'|].
  destruct (arcs_spec g Hg) as (l & _ & Hl & Hin & <-). split.
  - apply (rows_count ins l (λ p, (p.2, p.1))); [by intros [] [] [= -> ->]|by rewrite Hk|intros v k H; apply (Hi v k H)|exact Hl|].
    intros [u v]. rewrite Hin. split.
    + intros Huv. assert (v ∈ ins.*1) as Hv by (rewrite Hk, Hvs; apply (darc_vtx g u v Hg Huv)).
      apply elem_of_list_fmap in Hv as ([v' k] & -> & Hv). exists v', u, k. split_and!; [done| |done]. by apply (Hi v' k Hv).
    + intros (v' & u' & k & Hv & Hu & [= -> ->]). by apply (Hi v' k Hv).
  - apply (rows_count outs l id); [apply _|by rewrite Hk'|intros v k H; apply (Hi' v k H)|exact Hl|].
    intros [u v]. rewrite Hin. split.
    + intros Huv. assert (u ∈ outs.*1) as Hv by (rewrite Hk', Hvs; apply (darc_vtx g u v Hg Huv)).
      apply elem_of_list_fmap in Hv as ([u' k] & -> & Hv). exists u', v, k. split_and!; [done| |done]. by apply (Hi' u' k Hv).
    + intros (u' & v' & k & Hv & Hu & [= -> ->]). by apply (Hi' u' k Hv).
Qed.

Theorem C97_digraph_neighbours (g : editdigraph) u : ed_reachable g →
  digraph_neighbours (ed_digraph g) u = neighbours (ed_graph g) u ∧
  (ed_contains g u = false → digraph_neighbours (ed_digraph g) u = Panic) ∧
  (ed_contains g u = true → ∃ l, digraph_neighbours (ed_digraph g) u = Ok l ∧ length l = ed_degree g u ∧
     (∀ v, v ∈ l ↔ ed_has_arc g v u = true ∨ ed_has_arc g u v = true) ∧
     (NoDup l ↔ ∀ v, ed_has_arc g v u = true → ed_has_arc g u v = true → False)).
Proof.
  intros Hg. pose proof Hg as (os & bs & Hr). destruct (C16_queries os g bs Hr) as (_ & _ & _ & _ & Hc & Ha & _ & Hq).
  pose proof (proj1 (ed_reachable_wf g) Hg) as Hw.
  assert (ed_contains g u = false → digraph_neighbours (ed_digraph g) u = Panic) as Hp.
  { intros Hu. unfold digraph_neighbours. cbn. unfold ed_in_neighbours. destruct Hw as [D HR].
    rewrite (drep_in _ _ HR), decide_False; [done|]. rewrite <- (dvtx_rep _ _ _ HR). unfold dvtx. by rewrite Hu. }
  assert (ed_contains g u = true → ∃ li lo, ed_in_neighbours g u = Ok li ∧ NoDup li ∧ (∀ v, v ∈ li ↔ ed_has_arc g v u = true) ∧
     ed_out_neighbours g u = Ok lo ∧ NoDup lo ∧ (∀ v, v ∈ lo ↔ ed_has_arc g u v = true) ∧ ed_neighbours g u = Ok (li ++ lo) ∧
     ed_degree g u = length li + length lo) as Hin.
  { intros Hu%Hc. destruct (Hq u Hu) as (li & lo & ? & ? & H1 & ? & ? & H2 & ? & _ & _ & ?). exists li, lo. split_and!; try done.
    - intros v. by rewrite H1, Ha.
    - intros v. by rewrite H2, Ha. }
  clear Hq Hc Ha. split; [|split; [exact Hp|]].
  - destruct (ed_contains g u) eqn:Hu.
    + destruct Hin as (li & lo & H1 & _ & _ & H2 & _ & _ & H3 & _); [done|]. unfold digraph_neighbours. cbn.
      rewrite H1. cbn. rewrite H2. cbn. by rewrite H3.
    + rewrite Hp by done. cbn. unfold ed_neighbours. by rewrite Hu.
  - intros Hu. destruct (Hin Hu) as (li & lo & H1 & Hn1 & Hi1 & H2 & Hn2 & Hi2 & _ & Hd). exists (li ++ lo). split_and!.
    + unfold digraph_neighbours. cbn. rewrite H1. cbn. by rewrite H2.
    + by rewrite app_length, Hd.
    + intros v. by rewrite elem_of_app, Hi1, Hi2.
    + rewrite NoDup_app. split.
      * intros (_ & Hx & _) v Hv%Hi1 Hv'%Hi2. by apply (Hx v).
      * intros Hx. split_and!; [done| |done]. intros v Hv%Hi1 Hv'%Hi2. by apply (Hx v).
Qed.

(** ** Linear graphs *)
End with_iter.

Theorem C97_left (L : lgraph) : lgraph_wf L →
  ∃ items, drains (ln_next L) (ln_new L) items ∧ items.*1 = vertices L ∧
    (∀ v l, (v, l) ∈ items →
       lists_in_order (vertices L) (λ u, adjacent L v u = true ∧ before (vertices L) u v) l) ∧
    sum_map (λ r, length r.2) items = num_edges L.
Proof.
  intros HL. set (lf := λ u, match left_neighbours L u with Ok l => l | _ => [] end).
  destruct (src_drains (left_neighbours L) (λ v l, l = lf v ∧ lists_in_order (vertices L) (λ u, adj L v u ∧ before (vertices L) u v) l)
    (vertices L)) as (items & Hd & Hk & Hi).
  { intros v Hv. destruct (lwf_left L HL v) as (l & Hl & ?); [by apply (wf_vertices _ (lwf_graph L HL))|].
    exists l. split; [exact Hl|]. split; [|done]. unfold lf. by rewrite Hl. }
  exists items. split; [exact Hd|]. split; [exact Hk|]. split; [intros v l Hv; by apply Hi|].
  destruct (rows_of_graph L (vertices L) lf) as (_ & _ & _ & Hs).
  - apply HL.
  - apply HL.
  - apply (wf_vertices_nodup _ (lwf_graph L HL)).
  - intros u v Huv. apply (wf_vertices _ (lwf_graph L HL)). by eapply (wf_adj_vtx _ (lwf_graph L HL)).
  - intros u Hu. destruct (lwf_left L HL u) as (l & Hl & ?); [by apply (wf_vertices _ (lwf_graph L HL))|]. unfold lf. by rewrite Hl.
  - rewrite <- Hs. assert (items = (λ u, (u, lf u)) <$> vertices L) as ->.
    { rewrite <- Hk. clear Hd Hk Hs. induction items as [|[v l] items IH]; [done|]. cbn. f_equal.
      - destruct (Hi v l) as (_ & _ & -> & _); [by left|done].
      - apply IH. intros w k Hw. apply Hi. by right. }
    generalize ((λ u, (u, lf u)) <$> vertices L). intros rows. clear. unfold sum_map. induction rows as [|r rows IH]; [done|]. cbn in *. lia.
Qed.

(** The same on a ReachGraph, whose left neighbours are those of the graph it was built from. *)
Theorem C97_left_reach (D : nat) (L : lgraph) (P : N → N → nat → Prop) (rg : reachgraph) : lgraph_wf L → reach_graph_of D L P rg →
  ∃ items, drains (ln_next L) (ln_new L) items ∧ drains (ln_next (rg_lgraph D rg)) (ln_new (rg_lgraph D rg)) items.
Proof.
  intros HL HR. pose proof (reach_with_neighbours_wf D L P rg HL HR) as HW.
  destruct (C97_left L HL) as (items & Hd & Hk & Hi & _). destruct (C97_left _ HW) as (items' & Hd' & Hk' & Hi' & _).
  destruct HR as (_ & Hvs & _ & _ & Ha & _). change (vertices (with_neighbours_of L (rg_lgraph D rg))) with (vertices (rg_lgraph D rg)) in *.
  change (adjacent (with_neighbours_of L (rg_lgraph D rg))) with (adjacent (rg_lgraph D rg)) in *.
  rewrite Hvs in Hk', Hi'. exists items. split; [exact Hd|]. replace items with items'; [exact Hd'|].
  assert (∀ v l l', (v, l) ∈ items → (v, l') ∈ items' → l' = l) as Hu.
  { intros v l l' H1%Hi H2%Hi'. eapply lists_in_order_unique; [apply (wf_vertices_nodup _ (lwf_graph L HL))| |exact H1].
    destruct H2 as [H2 H3]. split; [|exact H3]. intros x. by rewrite H2, Ha. }
  clear - Hk Hk' Hu. rewrite <- Hk in Hk'. clear Hk. revert items' Hk' Hu.
  induction items as [|[v l] items IH]; intros [|[v' l'] items'] Hk Hu; [done|done|done|].
  cbn in Hk. injection Hk as -> Hk. f_equal.
  - f_equal. apply (Hu v); by left.
  - apply IH; [exact Hk|]. intros w k k' H1 H2. apply (Hu w); by right.
Qed.

(** ** Augmented graphs *)
Section with_iter2.
Context `{HI : HashIter}.

Theorem C97_dtf_at (g : dtfgraph) (w : nat) : dtf_any g → 1 ≤ w ≤ df_depth g →
  ∃ items, drains (dni_next g (Some w)) (dni_new g) items ∧ drains (dn_next (dl_digraph g w) DiIn) (dn_new (dl_digraph g w)) items ∧
    NoDup items.*1 ∧ (∀ v, v ∈ items.*1 ↔ df_contains g v = true) ∧
    ∀ v l, (v, l) ∈ items → NoDup l ∧ ∀ u, u ∈ l ↔ harc g w u v.
Proof.
  intros Hg%any_wf Hw. destruct w as [|i]; [lia|].
  destruct (src_drains (λ v, df_in_at g v (S i)) (λ v l, NoDup l ∧ ∀ u, u ∈ l ↔ harc g (S i) u v) (df_vertices g)) as (items & Hd & Hk & Hi).
  { intros v Hv. destruct (in_at_spec g v i Hg) as (l & ? & ? & Hl); [by apply df_vertices_spec|lia|]. exists l. split_and!; [done|done|].
    intros u. by rewrite harc_S, Hl. }
  exists items. rewrite Hk. split; [exact Hd|]. split; [exact Hd|]. split; [apply df_vertices_nodup|]. split.
  - intros v. rewrite df_vertices_spec. unfold dvx, df_contains. destruct (df_nodes g !! v); split; try done. by intros [? ?].
  - intros v l Hv. by apply Hi.
Qed.

Theorem C97_dtf_all (g : dtfgraph) : dtf_any g →
  ∃ items, drains (dni_next g None) (dni_new g) items ∧ drains (dn_next (df_digraph g) DiIn) (dn_new (df_digraph g)) items ∧
    NoDup items.*1 ∧ (∀ v, v ∈ items.*1 ↔ df_contains g v = true) ∧
    ∀ v l, (v, l) ∈ items → (∀ u, u ∈ l ↔ df_has_arc g u v = true) ∧
      ((∀ u w w', harc g w u v → harc g w' u v → w = w') → NoDup l).
Proof.
  intros Hg%any_wf.
  destruct (src_drains (df_in_neighbours g) (λ v l, ∀ u, u ∈ l ↔ df_has_arc g u v = true) (df_vertices g)) as (items & Hd & Hk & Hi).
  { intros v Hv. destruct (in_neighbours_spec g v) as (l & ? & Hl); [by apply df_vertices_spec|]. exists l. split; [done|].
    intros u. by rewrite df_has_arc_spec, Hl. }
  exists items. rewrite Hk. split; [exact Hd|]. split; [exact Hd|]. split; [apply df_vertices_nodup|]. split.
  - intros v. rewrite df_vertices_spec. unfold dvx, df_contains. destruct (df_nodes g !! v); split; try done. by intros [? ?].
  - intros v l (_ & Hl & Hm)%Hi. split; [exact Hm|]. intros Hone.
    unfold df_in_neighbours in Hl. apply bind_ok in Hl as (n & Hn%unwrap_ok & [= <-]).
    apply NoDup_concat_layers. intros i j X Y u HX HY Hu Hu'.
    cut (S i = S j); [lia|]. apply (Hone u); apply harc_S; [by exists n, X|by exists n, Y].
Qed.

(** ** What is not supported *)
Theorem C97_unsupported :
  (∀ G, vertices G ≠ [] → (∀ v, neighbours G v = Panic) → neigh_next G (ni_new G) = Panic) ∧
  (∀ g u, digraph_neighbours (df_digraph g) u = Panic) ∧ (∀ g w u, digraph_neighbours (dl_digraph g w) u = Panic) ∧
  (∀ g, df_vertices g ≠ [] → neigh_next (df_graph g) (ni_new (df_graph g)) = Panic ∧
     dn_next (df_digraph g) DiOut (dn_new (df_digraph g)) = Panic ∧
     ∀ w, neigh_next (dl_graph g w) (ni_new (dl_graph g w)) = Panic ∧
       dn_next (dl_digraph g w) DiOut (dn_new (dl_digraph g w)) = Panic ∧
       (w = 0 → dni_next g (Some w) (dni_new g) = Panic)) ∧
  (∀ D rg, vertices (rg_lgraph D rg) ≠ [] → neigh_next (rg_graph D rg) (ni_new (rg_graph D rg)) = Panic).
Proof.
  assert (∀ G, vertices G ≠ [] → (∀ v, neighbours G v = Panic) → neigh_next G (ni_new G) = Panic) as HG.
  { intros G Hne Hn. unfold ni_new. destruct (vertices G) as [|v vs]; [done|]. cbn. by rewrite Hn. }
  assert (∀ D u, out_neighbours D u = Panic → (∃ l, in_neighbours D u = Ok l) ∨ in_neighbours D u = Panic → digraph_neighbours D u = Panic) as HD.
  { intros D u Ho Hi. unfold digraph_neighbours. destruct Hi as [[l ->]| ->]; [cbn|done]. by rewrite Ho. }
  split; [exact HG|]. split; [|split; [|split]].
  - intros g u. apply HD; [done|]. cbn. unfold df_in_neighbours. destruct (df_nodes g !! u) as [n|]; [left|by right]. by eexists.
  - intros g w u. apply HD; [done|]. cbn. unfold dl_in_neighbours, df_in_at. destruct (df_nodes g !! u) as [n|]; [|by right].
    cbn. unfold dn_in_at, sub_checked. destruct (1 <=? w); [|by right]. cbn. destruct (dn_in n !! _) as [X|]; [left; by eexists|by right].
  - intros g Hne. split; [by apply HG|].
    assert (∃ v vs, df_vertices g = v :: vs) as (v & vs & Hv) by (destruct (df_vertices g) as [|v vs]; [done|by exists v, vs]).
    split; [unfold dn_new; cbn [vertices dg df_digraph df_graph]; by rewrite Hv|].
    intros w. split; [by apply HG|]. split; [unfold dn_new; cbn [vertices dg dl_digraph dl_graph]; by rewrite Hv|].
    unfold dni_new. rewrite Hv. cbn [dni_next dni_src]. unfold df_in_at.
    assert (dvx g v) as [n Hn] by (apply df_vertices_spec; rewrite Hv; by left). rewrite Hn. cbn [unwrap mbind res_bind].
    intros ->. done.
  - intros D rg Hne. by apply HG.
Qed.
End with_iter2.

(** An iterator that has ended stays ended. *)
Theorem C97_fused :
  (∀ G s s', neigh_next G s = Ok (None, s') → neigh_next G s' = Ok (None, s')) ∧
  (∀ D m s s', dn_next D m s = Ok (None, s') → dn_next D m s' = Ok (None, s')) ∧
  (∀ L s s', ln_next L s = Ok (None, s') → ln_next L s' = Ok (None, s')) ∧
  (∀ `{HashIter} g m s s', dni_next g m s = Ok (None, s') → dni_next g m s' = Ok (None, s')).
Proof.
  split; [intros G; apply (src_fused (neighbours G))|]. split; [intros D []; [apply (src_fused (in_neighbours D))|apply (src_fused (out_neighbours D))]|].
  split; [intros L; apply (src_fused (left_neighbours L))|]. intros ? g m. apply (src_fused (dni_src g m)).
Qed.

#[local] Existing Instance std_iter.

(** The items of an iterator, at most [n] of them (for the concrete cases). *)
Fixpoint take_items (next : list N → res (option (N * list N) * list N)) (s : list N) (n : nat) : res (list (N * list N)) :=
  match n with
  | 0 => Ok []
  | S n => r ← next s; match r with (Some x, s') => l ← take_items next s' n; Ok (x :: l) | (None, _) => Ok [] end
  end.

(** The documentation speaks of the set of all in- and out-neighbours; a vertex joined by arcs both ways is listed twice. *)
Theorem C97_refuted : ∃ g, ed_reachable g ∧ digraph_neighbours (ed_digraph g) 0 = Ok [1; 1]%N.
Proof.
  exists ex_d. split; [apply ex_d_reachable|]. vm_compute. reflexivity.
Qed.

(** ** Concrete cases *)
Definition ex_nb_edges : list (N * N) := [(0, 1); (1, 2); (2, 0); (2, 3)]%N.
Example ex_C97_neighbourhoods : graph_wf (eg_graph (ex_edit ex_nb_edges)) ∧
  take_items (neigh_next (eg_graph (ex_edit ex_nb_edges))) (ni_new (eg_graph (ex_edit ex_nb_edges))) 9 =
    Ok [(0, [1; 2]); (1, [0; 2]); (3, [2]); (2, [0; 1; 3])]%N.
Proof. split; [apply ex_edit_spec|vm_compute; reflexivity]. Qed.
Example ex_C97_in_out : ed_reachable ex_d ∧
  take_items (dn_next (ed_digraph ex_d) DiIn) (dn_new (ed_digraph ex_d)) 9 =
    Ok [(0, [1]); (1, [0]); (3, []); (5, []); (9, []); (2, [1; 2])]%N ∧
  take_items (dn_next (ed_digraph ex_d) DiOut) (dn_new (ed_digraph ex_d)) 9 =
    Ok [(0, [1]); (1, [0; 2]); (3, []); (5, []); (9, []); (2, [2])]%N.
Proof. split; [apply ex_d_reachable|]. vm_compute. split; reflexivity. Qed.
Example ex_C97_left : lgraph_wf (ex_lin ex_nb_edges [3; 2; 1; 0]%N) ∧
  take_items (ln_next (ex_lin ex_nb_edges [3; 2; 1; 0]%N)) (ln_new (ex_lin ex_nb_edges [3; 2; 1; 0]%N)) 9 =
    Ok [(3, []); (2, [3]); (1, [2]); (0, [2; 1])]%N.
Proof. split; [by apply ex_lin_spec|vm_compute; reflexivity]. Qed.
Example ex_C97_left_reach : ∃ rg, og_to_wreach_graph 2 ex_c5_ord = Ok rg ∧ lgraph_wf (og_lgraph ex_c5_ord) ∧
  reach_graph_of 2 (og_lgraph ex_c5_ord)
    (λ u v d, before (vertices (og_lgraph ex_c5_ord)) v u ∧ least (wreach_walk (og_lgraph ex_c5_ord) u v) d) rg.
Proof. exact ex_C83_hyps. Qed.
Example ex_C97_digraph_neighbours : ed_reachable ex_d ∧ digraph_neighbours (ed_digraph ex_d) 1 = Ok [0; 0; 2]%N ∧
  digraph_neighbours (ed_digraph ex_d) 4 = Panic.
Proof. split; [apply ex_d_reachable|]. vm_compute. split; reflexivity. Qed.
Example ex_C97_unsupported : df_vertices (ex_dtf_run ex_dtf_edges 3 2) ≠ [] ∧
  neigh_next (df_graph df_new) (ni_new (df_graph df_new)) = Ok (None, []).
Proof. vm_compute. done. Qed.
Example ex_C97_dtf : dtf_any (ex_dtf_run ex_dtf_edges 3 2) ∧ df_depth (ex_dtf_run ex_dtf_edges 3 2) = 3 ∧
  take_items (dni_next (ex_dtf_run ex_dtf_edges 3 2) (Some 1)) (dni_new (ex_dtf_run ex_dtf_edges 3 2)) 9 =
    Ok [(0, [1; 2]); (1, [2]); (3, [0]); (5, [4; 6]); (2, []); (4, [0]); (6, [1])]%N ∧
  take_items (dni_next (ex_dtf_run ex_dtf_edges 3 2) None) (dni_new (ex_dtf_run ex_dtf_edges 3 2)) 9 =
    Ok [(0, [1; 2]); (1, [2]); (3, [0; 1; 2]); (5, [4; 6; 0; 1; 2]); (2, []); (4, [0; 1; 2]); (6, [1; 2; 4; 0])]%N.
Proof. split; [by apply ex_dtf_any|]. vm_compute. split_and!; reflexivity. Qed.

Print Assumptions C97_neighbourhoods.
Print Assumptions C97_in_out.
Print Assumptions C97_digraph_neighbours.
Print Assumptions C97_left.
Print Assumptions C97_left_reach.
Print Assumptions C97_dtf_at.
Print Assumptions C97_dtf_all.
Print Assumptions C97_unsupported.
Print Assumptions C97_fused.
Print Assumptions C97_refuted.
