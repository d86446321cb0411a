(** Proofs about ordgraph.rs. *)
From Verif Require Import Base Spec M_Graph M_Iterators M_Algorithms M_OrdGraph S_Graph S_Linear
  P_EditGraph P_EditGraph2 P_Graph P_Iterators P_Degeneracy.

(** ** Positions *)
Lemma before_cons_inv {A} (l : list A) x y : before l x y → x ∈ l ∧ y ∈ l.
Proof. intros (i & j & Hi & Hj & _). split; by eapply elem_of_list_lookup_2. Qed.

(** [pos_map ind order]: [ind] gives the position of each entry of [order]. *)
Definition pos_map (ind : gmap N nat) (order : list N) : Prop :=
  ∀ u i, ind !! u = Some i ↔ order !! i = Some u.

Lemma pos_map_NoDup ind order : pos_map ind order → NoDup order.
Proof.
  intros H. apply NoDup_alt. intros i j x Hi Hj. apply H in Hi, Hj. congruence.
Qed.
Lemma pos_map_before ind order u v i j : pos_map ind order → ind !! u = Some i → ind !! v = Some j →
  before order u v ↔ i < j.
Proof.
  intros H Hu Hv. split.
  - intros (i' & j' & Hi & Hj & Hlt). apply H in Hi, Hj. simplify_eq. done.
  - intros Hlt. apply H in Hu, Hv. by exists i, j.
Qed.
Lemma pos_map_elem ind order u : pos_map ind order → u ∈ order ↔ is_Some (ind !! u).
Proof.
  intros H. rewrite elem_of_list_lookup. split; intros [i Hi]; [exists i; by apply H|exists i; by apply H].
Qed.

(** Total version of the positions. *)
Definition px (ind : gmap N nat) (u : N) : nat := default 0 (ind !! u).
Lemma px_before ind order u v : pos_map ind order →
  before order u v ↔ u ∈ order ∧ v ∈ order ∧ px ind u < px ind v.
Proof.
  intros H. split.
  - intros Hb. destruct (before_cons_inv _ _ _ Hb) as [Hu Hv]. split_and!; [done|done|].
    apply (pos_map_elem _ _ _ H) in Hu as [i Hi], Hv as [j Hj].
    unfold px. rewrite Hi, Hj. cbn. by eapply pos_map_before.
  - intros (Hu & Hv & Hlt). apply (pos_map_elem _ _ _ H) in Hu as [i Hi], Hv as [j Hj].
    unfold px in Hlt. rewrite Hi, Hj in Hlt. by eapply pos_map_before.
Qed.
Lemma px_inj ind order u v : pos_map ind order → u ∈ order → v ∈ order → px ind u = px ind v → u = v.
Proof.
  intros H Hu Hv. apply (pos_map_elem _ _ _ H) in Hu as [i Hi], Hv as [j Hj].
  unfold px. rewrite Hi, Hj. cbn. intros ->. apply H in Hi, Hj. congruence.
Qed.
Lemma px_lookup ind order u : pos_map ind order → u ∈ order → ind !! u = Some (px ind u) ∧ order !! px ind u = Some u.
Proof.
  intros H Hu. apply (pos_map_elem _ _ _ H) in Hu as [i Hi]. unfold px. rewrite Hi.
  split; [done|]. by apply H.
Qed.

(** ** Representation of the node vector *)
Record og_rep (ind : gmap N nat) (nodes : list ordnode) (order : list N) (Lf Rt : N → N → Prop) : Prop := {
  or_pos : pos_map ind order;
  or_nodes : on_v <$> nodes = order;
  or_sets : ∀ i n, nodes !! i = Some n →
    (∀ y, y ∈ on_left n ↔ Lf (on_v n) y) ∧ (∀ y, y ∈ on_right n ↔ Rt (on_v n) y);
}.

Lemma og_rep_lookup ind nodes order Lf Rt i x :
  og_rep ind nodes order Lf Rt → order !! i = Some x →
  ∃ n, nodes !! i = Some n ∧ on_v n = x ∧ (∀ y, y ∈ on_left n ↔ Lf x y) ∧ (∀ y, y ∈ on_right n ↔ Rt x y).
Proof.
  intros H Hx. rewrite <- (or_nodes _ _ _ _ _ H), list_lookup_fmap in Hx.
  destruct (nodes !! i) as [n|] eqn:Hn; [|done]. injection Hx as <-.
  destruct (or_sets _ _ _ _ _ H i n Hn). eauto.
Qed.

Lemma og_rep_upd ind nodes order Lf Rt Lf' Rt' i n' :
  og_rep ind nodes order Lf Rt → order !! i = Some (on_v n') →
  (∀ y, y ∈ on_left n' ↔ Lf' (on_v n') y) → (∀ y, y ∈ on_right n' ↔ Rt' (on_v n') y) →
  (∀ a y, a ∈ order → a ≠ on_v n' → Lf' a y ↔ Lf a y) → (∀ a y, a ∈ order → a ≠ on_v n' → Rt' a y ↔ Rt a y) →
  og_rep ind (<[i := n']> nodes) order Lf' Rt'.
Proof.
  intros H Hi HL HR HL' HR'. split.
  - apply H.
  - rewrite list_fmap_insert, (or_nodes _ _ _ _ _ H). by apply list_insert_id.
  - intros j n Hj. apply list_lookup_insert_Some in Hj as [(-> & <- & _)|[Hne Hj]]; [done|].
    assert (order !! j = Some (on_v n)) as Hjo.
    { rewrite <- (or_nodes _ _ _ _ _ H), list_lookup_fmap, Hj. done. }
    assert (on_v n ≠ on_v n') as Hnv.
    { intros Heq. rewrite Heq in Hjo. apply Hne.
      eapply NoDup_lookup; [eapply pos_map_NoDup, H|exact Hi|exact Hjo]. }
    assert (on_v n ∈ order) by (by eapply elem_of_list_lookup_2).
    destruct (or_sets _ _ _ _ _ H j n Hj) as [H1 H2]. split; intros y; [rewrite H1|rewrite H2]; symmetry; auto.
Qed.

Lemma og_rep_ext ind nodes order Lf Rt Lf' Rt' :
  og_rep ind nodes order Lf Rt → (∀ x y, x ∈ order → Lf' x y ↔ Lf x y) → (∀ x y, x ∈ order → Rt' x y ↔ Rt x y) →
  og_rep ind nodes order Lf' Rt'.
Proof.
  intros H HL HR. split; [apply H|apply H|]. intros i n Hn.
  assert (on_v n ∈ order) as Hin.
  { rewrite <- (or_nodes _ _ _ _ _ H). apply elem_of_list_fmap. exists n. split; [done|]. by eapply elem_of_list_lookup_2. }
  destruct (or_sets _ _ _ _ _ H i n Hn) as [H1 H2].
  split; intros y; [rewrite H1|rewrite H2]; symmetry; auto.
Qed.

(** ** with_ordering *)
Lemma og_index_map_spec order : NoDup order → pos_map (og_index_map order) order.
Proof.
  intros Hnd u i. unfold og_index_map.
  assert (∀ (l : list (nat * N)) (m : gmap N nat), NoDup l.*2 → (∀ x, x ∈ l.*2 → m !! x = None) →
    foldl (λ m p, <[p.2 := p.1]> m) m l !! u = Some i ↔ m !! u = Some i ∨ (i, u) ∈ l) as HH.
  { induction l as [|[k v] l IH]; intros m Hl Hm; cbn [foldl]; [set_solver|].
    cbn in Hl. apply NoDup_cons in Hl as [Hv Hl]. rewrite IH; [|done|].
    - cbn. rewrite lookup_insert_Some, elem_of_cons. specialize (Hm v ltac:(set_solver)). split.
      + intros [[[-> ->]|[? ?]]|?]; auto.
      + intros [Hmu|[[= -> ->]|?]]; [|auto|auto]. left. right. split; [|done]. intros ->. congruence.
    - intros x Hx. cbn. rewrite lookup_insert_ne by (intros <-; done). apply Hm. cbn. set_solver. }
  rewrite HH.
  - rewrite lookup_empty. rewrite elem_of_lookup_imap. naive_solver.
  - replace ((imap pair order).*2) with order; [done|]. symmetry.
    rewrite fmap_imap. unfold compose. cbn. clear. rewrite <- (imap_const id order) at 2 || idtac.
    apply list_eq. intros j. rewrite list_lookup_imap. by destruct (order !! j).
  - intros x _. apply lookup_empty.
Qed.

Lemma og_init_nodes order ind : pos_map ind order →
  fold_res (λ nodes v,
      i ← unwrap (ind !! v);
      _ ← assert_res (i =? length nodes);
      Ok (nodes ++ [on_new v])) order [] = Ok (on_new <$> order).
Proof.
  intros Hp.
  destruct (fold_res_inv (λ nodes v, i ← unwrap (ind !! v); _ ← assert_res (i =? length nodes); Ok (nodes ++ [on_new v]))
    (λ pre nodes, nodes = on_new <$> pre) order []) as (nodes & -> & ->); [done| |done].
  intros l1 x l2 nodes -> ->.
  assert (ind !! x = Some (length l1)) as Hx by (apply Hp; by apply list_lookup_middle).
  rewrite Hx. cbn [unwrap mbind res_bind]. rewrite fmap_length, Nat.eqb_refl. cbn.
  eexists; split; [done|]. by rewrite fmap_app.
Qed.

Lemma og_rep_init order ind : pos_map ind order → og_rep ind (on_new <$> order) order (λ _ _, False) (λ _ _, False).
Proof.
  intros Hp. split; [done| |].
  - rewrite <- list_fmap_compose. unfold compose. cbn. apply list_fmap_id.
  - intros i n Hn. rewrite list_lookup_fmap in Hn. destruct (order !! i); [|done]. injection Hn as <-. set_solver.
Qed.

Lemma on_insert_left_spec ind nodes order Lf Rt i v x :
  og_rep ind nodes order Lf Rt → order !! i = Some v →
  ∃ nodes', on_insert_left nodes i x = Ok nodes' ∧
    og_rep ind nodes' order (λ a y, Lf a y ∨ (a = v ∧ y = x)) Rt.
Proof.
  intros H Hi. destruct (og_rep_lookup _ _ _ _ _ _ _ H Hi) as (n & Hn & Hv & HL & HR).
  unfold on_insert_left. rewrite Hn. cbn [unwrap mbind res_bind]. eexists; split; [done|].
  eapply og_rep_upd; [exact H|cbn; by rewrite Hv| | | |]; cbn; rewrite ?Hv.
  - intros y. rewrite elem_of_union, elem_of_singleton, HL. naive_solver.
  - done.
  - naive_solver.
  - done.
Qed.
Lemma on_insert_right_spec ind nodes order Lf Rt i v x :
  og_rep ind nodes order Lf Rt → order !! i = Some v →
  ∃ nodes', on_insert_right nodes i x = Ok nodes' ∧
    og_rep ind nodes' order Lf (λ a y, Rt a y ∨ (a = v ∧ y = x)).
Proof.
  intros H Hi. destruct (og_rep_lookup _ _ _ _ _ _ _ H Hi) as (n & Hn & Hv & HL & HR).
  unfold on_insert_right. rewrite Hn. cbn [unwrap mbind res_bind]. eexists; split; [done|].
  eapply og_rep_upd; [exact H|cbn; by rewrite Hv| | | |]; cbn; rewrite ?Hv.
  - done.
  - intros y. rewrite elem_of_union, elem_of_singleton, HR. naive_solver.
  - done.
  - naive_solver.
Qed.

Lemma og_insert_edge_spec ind nodes order Lf Rt u v :
  og_rep ind nodes order Lf Rt → u ∈ order → v ∈ order → u ≠ v →
  ∃ nodes', og_insert_edge ind nodes (u, v) = Ok nodes' ∧
    og_rep ind nodes' order
      (λ a y, Lf a y ∨ (((a = u ∧ y = v) ∨ (a = v ∧ y = u)) ∧ px ind y < px ind a))
      (λ a y, Rt a y ∨ (((a = u ∧ y = v) ∨ (a = v ∧ y = u)) ∧ px ind a < px ind y)).
Proof.
  intros H Hu Hv Hne. pose proof (or_pos _ _ _ _ _ H) as Hp.
  destruct (px_lookup _ _ _ Hp Hu) as [Hu1 Hu2]. destruct (px_lookup _ _ _ Hp Hv) as [Hv1 Hv2].
  assert (px ind u ≠ px ind v) as Hpne by (intros ?; apply Hne; by eapply px_inj).
  unfold og_insert_edge. rewrite Hu1, Hv1. cbn [unwrap mbind res_bind].
  destruct (Nat.ltb_spec (px ind u) (px ind v)) as [Hlt|Hge].
  - destruct (on_insert_right_spec _ _ _ _ _ (px ind u) u v H Hu2) as (n1 & -> & H1). cbn [mbind res_bind].
    destruct (on_insert_left_spec _ _ _ _ _ (px ind v) v u H1 Hv2) as (n2 & -> & H2).
    eexists; split; [done|]. eapply og_rep_ext; [exact H2| |]; cbv beta; intros a y _; split.
    + intros [?|[[[-> ->]|[-> ->]] ?]]; [auto|lia|auto].
    + intros [?|[-> ->]]; auto.
    + intros [?|[[[-> ->]|[-> ->]] ?]]; [auto|auto|lia].
    + intros [?|[-> ->]]; auto.
  - destruct (on_insert_right_spec _ _ _ _ _ (px ind v) v u H Hv2) as (n1 & -> & H1). cbn [mbind res_bind].
    destruct (on_insert_left_spec _ _ _ _ _ (px ind u) u v H1 Hu2) as (n2 & -> & H2).
    eexists; split; [done|]. eapply og_rep_ext; [exact H2| |]; cbv beta; intros a y _; split.
    + intros [?|[[[-> ->]|[-> ->]] ?]]; [auto|auto|lia].
    + intros [?|[-> ->]]; [auto|]. right. split; [auto|lia].
    + intros [?|[[[-> ->]|[-> ->]] ?]]; [auto|lia|auto].
    + intros [?|[-> ->]]; [auto|]. right. split; [auto|lia].
Qed.

(** The invariant: left and right sets are exact for the adjacency [R]. *)
Record og_exact (G : graph) (order : list N) (g : ordgraph) : Prop := {
  oe_rep : og_rep (og_indices g) (og_nodes g) order
     (λ x y, adj G x y ∧ before order y x) (λ x y, adj G x y ∧ before order x y);
  oe_cover : ∀ u v, adj G u v → u ∈ order;
  oe_m : og_m g = num_edges G;
}.

Lemma with_ordering_spec G order : graph_wf G → loopless G → NoDup order →
  (∀ u v, adj G u v → u ∈ order) →
  ∃ g, og_with_ordering G order = Ok g ∧ og_exact G order g.
Proof.
  intros Hwf Hloop Hnd Hcov. unfold og_with_ordering.
  pose proof (og_index_map_spec order Hnd) as Hp. set (ind := og_index_map order) in *. clearbody ind.
  rewrite og_init_nodes by done. cbn [mbind res_bind].
  destruct (edges_spec G Hwf) as (es & -> & Hnde & Hes & Hlen). cbn [mbind res_bind].
  destruct (fold_res_inv (og_insert_edge ind) (λ pre nodes, og_rep ind nodes order
      (λ a y, ((a, y) ∈ pre ∨ (y, a) ∈ pre) ∧ px ind y < px ind a)
      (λ a y, ((a, y) ∈ pre ∨ (y, a) ∈ pre) ∧ px ind a < px ind y)) es (on_new <$> order)) as (nodes & -> & Hn).
  - eapply og_rep_ext; [by apply og_rep_init| |]; set_solver.
  - intros l1 [u v] l2 nodes Heq Hn.
    assert (adj G u v) as Huv by (apply (Hes u v); rewrite Heq; set_solver).
    destruct (og_insert_edge_spec ind nodes order _ _ u v Hn) as (nodes' & Hok & Hn').
    + by eapply Hcov.
    + by eapply Hcov, (wf_adj_sym _ Hwf).
    + intros ->. by apply Hloop in Huv.
    + exists nodes'. split; [done|]. eapply og_rep_ext; [exact Hn'| |]; cbv beta; intros a y _;
        rewrite !elem_of_app, !elem_of_list_singleton; split.
      * intros [[[?|[= -> ->]]|[?|[= -> ->]]] ?]; auto 10.
      * intros [[[?|?] ?]|[[[-> ->]|[-> ->]] ?]]; auto 10.
      * intros [[[?|[= -> ->]]|[?|[= -> ->]]] ?]; auto 10.
      * intros [[[?|?] ?]|[[[-> ->]|[-> ->]] ?]]; auto 10.
  - cbn [mbind res_bind]. eexists; split; [done|]. split; [|done|done]. cbn.
    assert (∀ a y, (a, y) ∈ es ∨ (y, a) ∈ es ↔ adj G a y) as Hadj.
    { intros a y. rewrite !Hes. split.
      - intros [[_ ?]|[_ ?]]; [done|by apply (wf_adj_sym _ Hwf)].
      - intros Hay. destruct (N.le_gt_cases a y); [left; done|right; split; [lia|by apply (wf_adj_sym _ Hwf)]]. }
    eapply og_rep_ext; [exact Hn| |]; cbv beta; intros a y Ha; rewrite Hadj, (px_before ind order _ _ Hp).
    + split; [naive_solver|]. intros [Hay ?]. split_and!; [done|by eapply Hcov, (wf_adj_sym _ Hwf)|done|done].
    + split; [naive_solver|]. intros [Hay ?]. split_and!; [done|done|by eapply Hcov, (wf_adj_sym _ Hwf)|done].
Qed.

(** Bad orders panic. *)
Lemma fold_res_panic {A S} (f : S → A → res S) l s x :
  x ∈ l → (∀ s, f s x = Panic) → (∀ s y, f s y ≠ Diverge) → fold_res f l s = Panic.
Proof.
  intros Hx Hp Hd. revert s. induction l as [|y l IH]; intros s; [set_solver|]. cbn.
  apply elem_of_cons in Hx as [->|Hx]; [by rewrite Hp|].
  destruct (f s y) eqn:E; [|done|by apply Hd in E]. cbn. by apply IH.
Qed.
Lemma fold_res_no_diverge {A S} (f : S → A → res S) l s : (∀ s y, f s y ≠ Diverge) → fold_res f l s ≠ Diverge.
Proof.
  intros Hd. revert s. induction l as [|y l IH]; intros s; [done|]. cbn.
  destruct (f s y) eqn:E; [|done|by apply Hd in E]. cbn. apply IH.
Qed.

Lemma on_insert_no_diverge nodes i x :
  on_insert_left nodes i x ≠ Diverge ∧ on_insert_right nodes i x ≠ Diverge.
Proof. unfold on_insert_left, on_insert_right. by destruct (nodes !! i). Qed.
Lemma og_insert_edge_no_diverge ind nodes e : og_insert_edge ind nodes e ≠ Diverge.
Proof.
  destruct e as [u v]. unfold og_insert_edge.
  destruct (ind !! u) as [i|], (ind !! v) as [j|]; cbn [unwrap mbind res_bind]; try done.
  destruct (i <? j).
  - destruct (on_insert_right nodes i v) eqn:E; cbn [mbind res_bind]; [apply on_insert_no_diverge|done|by apply on_insert_no_diverge in E].
  - destruct (on_insert_right nodes j u) eqn:E; cbn [mbind res_bind]; [apply on_insert_no_diverge|done|by apply on_insert_no_diverge in E].
Qed.

Lemma og_index_map_elem order u : is_Some (og_index_map order !! u) ↔ u ∈ order.
Proof.
  unfold og_index_map.
  assert (∀ (l : list (nat * N)) (m : gmap N nat),
    is_Some (foldl (λ m p, <[p.2 := p.1]> m) m l !! u) ↔ is_Some (m !! u) ∨ u ∈ l.*2) as HH.
  { induction l as [|[k v] l IH]; intros m; cbn [foldl]; [set_solver|]. rewrite IH. cbn.
    rewrite lookup_insert_is_Some'. rewrite elem_of_cons. naive_solver. }
  rewrite HH, lookup_empty.
  replace ((imap pair order).*2) with order.
  - split; [intros [[? ?]|?]; done|by right].
  - apply list_eq. intros j. rewrite list_lookup_fmap, list_lookup_imap. by destruct (order !! j).
Qed.

Lemma og_init_dup order : ¬ NoDup order →
  fold_res (λ nodes v,
      i ← unwrap (og_index_map order !! v);
      _ ← assert_res (i =? length nodes);
      Ok (nodes ++ [on_new v])) order [] = Panic.
Proof.
  intros Hdup. set (ind := og_index_map order). clearbody ind.
  destruct (fold_res _ _ _) as [nodes| |] eqn:E; [|done|].
  - exfalso. apply Hdup.
    assert (∀ l pre nodes nodes', length nodes = length pre → (∀ i x, pre !! i = Some x → ind !! x = Some i) →
      fold_res (λ nodes v, i ← unwrap (ind !! v); _ ← assert_res (i =? length nodes); Ok (nodes ++ [on_new v])) l nodes = Ok nodes' →
      ∀ i x, (pre ++ l) !! i = Some x → ind !! x = Some i) as HH.
    { induction l as [|y l IH]; intros pre nodes1 nodes2 Hlen Hpre Hf i x.
      - rewrite app_nil_r. apply Hpre.
      - cbn in Hf. apply bind_ok in Hf as (n1 & Hn1 & Hf).
        apply bind_ok in Hn1 as (k & Hk%unwrap_ok & Hn1). apply bind_ok in Hn1 as (? & Ha & [= <-]).
        unfold assert_res in Ha. destruct (Nat.eqb_spec k (length nodes1)) as [->|]; [|done].
        rewrite cons_middle, (assoc_L (++)). eapply IH; [|clear i x; intros i x|exact Hf].
        + rewrite !app_length. cbn. lia.
        + rewrite lookup_app_Some, list_lookup_singleton_Some. intros [?|(? & ? & ->)]; [by apply Hpre|].
          rewrite Hk. f_equal. lia. }
    apply NoDup_alt. intros i j x Hi Hj.
    pose proof (HH order [] [] nodes eq_refl ltac:(done) E) as HH2.
    apply HH2 in Hi, Hj. congruence.
  - exfalso. revert E. apply fold_res_no_diverge. intros s y. destruct (ind !! y); [|done]. cbn. by destruct (_ =? _).
Qed.

Lemma with_ordering_panic G order : graph_wf G →
  ¬ NoDup order ∨ (∃ u v, adj G u v ∧ u ∉ order) → og_with_ordering G order = Panic.
Proof.
  intros Hwf Hbad. unfold og_with_ordering.
  destruct (decide (NoDup order)) as [Hnd|Hnd]; [|by rewrite og_init_dup].
  destruct Hbad as [?|(u & v & Huv & Hu)]; [done|].
  rewrite og_init_nodes by (by apply og_index_map_spec). cbn [mbind res_bind].
  destruct (edges_spec G Hwf) as (es & -> & _ & Hes & _). cbn [mbind res_bind].
  assert (og_index_map order !! u = None) as Hn.
  { apply eq_None_not_Some. by rewrite og_index_map_elem. }
  assert (∃ e, e ∈ es ∧ (e.1 = u ∨ e.2 = u)) as (e & He & Heu).
  { destruct (N.le_gt_cases u v); [exists (u, v)|exists (v, u)]; (split; [|by auto]); apply Hes; [done|].
    split; [lia|by apply (wf_adj_sym _ Hwf)]. }
  rewrite (fold_res_panic _ es _ e); [done|done| |].
  - intros s. destruct e as [a b]. unfold og_insert_edge. cbn in Heu. destruct Heu as [->| ->].
    + by rewrite Hn.
    + rewrite Hn. by destruct (_ !! a).
  - intros. apply og_insert_edge_no_diverge.
Qed.

Section with_iter.
Context `{HI : HashIter}.

(** ** swap *)
Lemma on_neighbours_elem n y : y ∈ on_neighbours n ↔ y ∈ on_left n ∨ y ∈ on_right n.
Proof. unfold on_neighbours. by rewrite elem_of_app, !elem_of_hash_iter. Qed.

Lemma og_move_collect ind order new l : pos_map ind order → (∀ x, x ∈ l → x ∈ order) →
  ∃ needs nl nr, fold_res (λ (st : list nat * gset N * gset N) x,
      ix ← unwrap (ind !! x);
      Ok (if ix <? new then (st.1.1 ++ [ix], {[x]} ∪ st.1.2, st.2)
          else (st.1.1 ++ [ix], st.1.2, {[x]} ∪ st.2))) l ([], ∅, ∅) = Ok (needs, nl, nr) ∧
    (∀ i, i ∈ needs ↔ ∃ x, x ∈ l ∧ i = px ind x) ∧
    (∀ x, x ∈ nl ↔ x ∈ l ∧ px ind x < new) ∧ (∀ x, x ∈ nr ↔ x ∈ l ∧ new ≤ px ind x).
Proof.
  intros Hp Hl.
  destruct (fold_res_inv (λ (st : list nat * gset N * gset N) x,
      ix ← unwrap (ind !! x);
      Ok (if ix <? new then (st.1.1 ++ [ix], {[x]} ∪ st.1.2, st.2)
          else (st.1.1 ++ [ix], st.1.2, {[x]} ∪ st.2)))
    (λ pre st, (∀ i, i ∈ st.1.1 ↔ ∃ x, x ∈ pre ∧ i = px ind x) ∧
      (∀ x, x ∈ st.1.2 ↔ x ∈ pre ∧ px ind x < new) ∧ (∀ x, x ∈ st.2 ↔ x ∈ pre ∧ new ≤ px ind x))
    l ([], ∅, ∅)) as ([[needs nl] nr] & -> & H).
  - cbn. set_solver.
  - intros l1 x l2 [[needs nl] nr] Heq (H1 & H2 & H3). cbn [fst snd] in *.
    destruct (px_lookup ind order x Hp) as [Hx _]; [apply Hl; rewrite Heq; set_solver|]. rewrite Hx.
    cbn [unwrap mbind res_bind]. destruct (Nat.ltb_spec (px ind x) new) as [Hlt|Hge]; (eexists; split; [done|]); cbn [fst snd].
    + split_and!.
      * intros i. rewrite elem_of_app, H1, elem_of_list_singleton. setoid_rewrite elem_of_app. setoid_rewrite elem_of_list_singleton. naive_solver.
      * intros y. rewrite elem_of_union, elem_of_singleton, H2, elem_of_app, elem_of_list_singleton. naive_solver.
      * intros y. rewrite H3, elem_of_app, elem_of_list_singleton. split; [naive_solver|]. intros [[?| ->] ?]; [done|lia].
    + split_and!.
      * intros i. rewrite elem_of_app, H1, elem_of_list_singleton. setoid_rewrite elem_of_app. setoid_rewrite elem_of_list_singleton. naive_solver.
      * intros y. rewrite H2, elem_of_app, elem_of_list_singleton. split; [naive_solver|]. intros [[?| ->] ?]; [done|lia].
      * intros y. rewrite elem_of_union, elem_of_singleton, H3, elem_of_app, elem_of_list_singleton. naive_solver.
  - eexists _, _, _. split; [done|exact H].
Qed.

(** Lists [Lf]/[Rt] after moving [s] to position [new]. *)
Definition mvL (ind : gmap N nat) (s : N) (new : nat) (Lf Rt : N → N → Prop) (x y : N) : Prop :=
  if decide (x = s) then (Lf s y ∨ Rt s y) ∧ px ind y < new
  else if decide (y = s) then ((Lf x s ∨ Rt x s) ∧ new < px ind x) ∨ (Lf x s ∧ px ind x = new)
  else Lf x y.
Definition mvR (ind : gmap N nat) (s : N) (new : nat) (Lf Rt : N → N → Prop) (x y : N) : Prop :=
  if decide (x = s) then (Lf s y ∨ Rt s y) ∧ new ≤ px ind y
  else if decide (y = s) then ((Lf x s ∨ Rt x s) ∧ px ind x < new) ∨ (Rt x s ∧ px ind x = new)
  else Rt x y.

Lemma og_move_spec ind nodes order Lf Rt s new :
  og_rep ind nodes order Lf Rt → s ∈ order →
  (∀ x, Lf s x ∨ Rt s x → x ∈ order ∧ x ≠ s) →
  (∀ x, Lf s x ∨ Rt s x ↔ Lf x s ∨ Rt x s) → (∀ x, ¬ (Lf x s ∧ Rt x s)) →
  ∃ nodes', og_move ind s (px ind s) new nodes = Ok nodes' ∧
    og_rep ind nodes' order (mvL ind s new Lf Rt) (mvR ind s new Lf Rt).
Proof.
  intros H Hs Hsup Hsym Hdis. pose proof (or_pos _ _ _ _ _ H) as Hp.
  destruct (px_lookup _ _ _ Hp Hs) as [Hs1 Hs2].
  destruct (og_rep_lookup _ _ _ _ _ _ _ H Hs2) as (n & Hn & Hv & HL & HR).
  unfold og_move. rewrite Hn. cbn [unwrap mbind res_bind].
  assert (∀ x, x ∈ on_neighbours n ↔ Lf s x ∨ Rt s x) as Hnb.
  { intros x. by rewrite on_neighbours_elem, HL, HR. }
  destruct (og_move_collect ind order new (on_neighbours n) Hp) as (needs & nl & nr & -> & Hneeds & Hnl & Hnr).
  { intros x Hx%Hnb. by apply Hsup. }
  cbn [mbind res_bind fst snd].
  (* state after processing a prefix of [needs] *)
  set (P := λ (pre : list nat) (x : N), px ind x ∈ pre).
  destruct (fold_res_inv (λ nodes ix,
      n ← unwrap (nodes !! ix);
      Ok (if (ix <? new) && bool_decide (s ∈ on_left n) then
            <[ix := OrdNode (on_v n) (on_left n ∖ {[s]}) ({[s]} ∪ on_right n)]> nodes
          else if (new <? ix) && bool_decide (s ∈ on_right n) then
            <[ix := OrdNode (on_v n) ({[s]} ∪ on_left n) (on_right n ∖ {[s]})]> nodes
          else nodes))
    (λ pre nodes, og_rep ind nodes order
       (λ x y, if decide (x = s) then (Lf s y ∨ Rt s y) ∧ px ind y < new
               else if decide (px ind x ∈ pre) then mvL ind s new Lf Rt x y else Lf x y)
       (λ x y, if decide (x = s) then (Lf s y ∨ Rt s y) ∧ new ≤ px ind y
               else if decide (px ind x ∈ pre) then mvR ind s new Lf Rt x y else Rt x y))
    needs (<[px ind s := OrdNode (on_v n) nl nr]> nodes)) as (nodes' & -> & Hn').
  - eapply og_rep_upd; [exact H|cbn; by rewrite Hv| | | |]; cbn; rewrite Hv.
    + intros y. rewrite decide_True by done. rewrite Hnl, Hnb. done.
    + intros y. rewrite decide_True by done. rewrite Hnr, Hnb. done.
    + intros a y _ Ha. rewrite decide_False by done. by rewrite decide_False by set_solver.
    + intros a y _ Ha. rewrite decide_False by done. by rewrite decide_False by set_solver.
  - intros l1 ix l2 nodes1 Heq Hr.
    assert (ix ∈ needs) as Hix by (rewrite Heq; set_solver).
    apply Hneeds in Hix as (x & Hx%Hnb & ->). destruct (Hsup x Hx) as [Hxo Hxs].
    destruct (px_lookup _ _ _ Hp Hxo) as [Hx1 Hx2].
    destruct (og_rep_lookup _ _ _ _ _ _ _ Hr Hx2) as (m & Hm & Hmv & HmL & HmR). rewrite Hm. cbn [unwrap mbind res_bind].
    assert (∀ y, y ∈ on_left m ↔ if decide (px ind x ∈ l1) then mvL ind s new Lf Rt x y else Lf x y) as HmL'.
    { intros y. rewrite HmL. by rewrite decide_False by done. }
    assert (∀ y, y ∈ on_right m ↔ if decide (px ind x ∈ l1) then mvR ind s new Lf Rt x y else Rt x y) as HmR'.
    { intros y. rewrite HmR. by rewrite decide_False by done. }
    clear HmL HmR. rename HmL' into HmL, HmR' into HmR.
    assert (Lf x s ∨ Rt x s) as Hxs' by (by apply Hsym).
    (* [x] may have been processed before; then this step changes nothing *)
    assert (∀ nodes2, (nodes2 = nodes1 ∧ (∀ y, y ∈ on_left m ↔ mvL ind s new Lf Rt x y) ∧ (∀ y, y ∈ on_right m ↔ mvR ind s new Lf Rt x y) ∨
       ∃ m', nodes2 = <[px ind x := m']> nodes1 ∧ on_v m' = x ∧
        (∀ y, y ∈ on_left m' ↔ mvL ind s new Lf Rt x y) ∧ (∀ y, y ∈ on_right m' ↔ mvR ind s new Lf Rt x y)) →
       og_rep ind nodes2 order
       (λ x0 y, if decide (x0 = s) then (Lf s y ∨ Rt s y) ∧ px ind y < new
               else if decide (px ind x0 ∈ l1 ++ [px ind x]) then mvL ind s new Lf Rt x0 y else Lf x0 y)
       (λ x0 y, if decide (x0 = s) then (Lf s y ∨ Rt s y) ∧ new ≤ px ind y
               else if decide (px ind x0 ∈ l1 ++ [px ind x]) then mvR ind s new Lf Rt x0 y else Rt x0 y)) as Hfin.
    { assert (∀ a, a ∈ order → a ≠ x → px ind a ∈ l1 ++ [px ind x] ↔ px ind a ∈ l1) as Hpa.
      { intros a Ha Hax. rewrite elem_of_app, elem_of_list_singleton. split; [|auto]. intros [?|?]; [done|].
        exfalso. apply Hax. by eapply px_inj. }
      intros nodes2 [(-> & HA & HB)|(m' & -> & Hm' & HA & HB)].
      - eapply og_rep_ext; [exact Hr| |]; cbv beta; intros a y Ha.
        + destruct (decide (a = s)); [done|]. destruct (decide (a = x)) as [->|Hax].
          * rewrite decide_True by set_solver. rewrite <- HA, HmL. done.
          * specialize (Hpa a Ha Hax). repeat case_decide; tauto.
        + destruct (decide (a = s)); [done|]. destruct (decide (a = x)) as [->|Hax].
          * rewrite decide_True by set_solver. rewrite <- HB, HmR. done.
          * specialize (Hpa a Ha Hax). repeat case_decide; tauto.
      - eapply og_rep_upd; [exact Hr|by rewrite Hm'| | | |]; cbv beta; rewrite Hm'.
        + intros y. rewrite decide_False by done. rewrite decide_True by set_solver. apply HA.
        + intros y. rewrite decide_False by done. rewrite decide_True by set_solver. apply HB.
        + intros a y Ha Hax. specialize (Hpa a Ha Hax). repeat case_decide; tauto.
        + intros a y Ha Hax. specialize (Hpa a Ha Hax). repeat case_decide; tauto. }
    eexists; split; [done|]. apply Hfin. clear Hfin.
    pose proof (Hdis x) as Hdx. clear Heq Hr Hm Hnl Hnr Hneeds P HL HR Hnb.
    destruct (decide (px ind x ∈ l1)) as [Hin|Hin].
    + (* already processed: neither branch applies *)
      assert ((px ind x <? new) && bool_decide (s ∈ on_left m) = false) as ->.
      { apply andb_false_iff. rewrite Nat.ltb_ge, bool_decide_eq_false.
        destruct (decide (px ind x < new)); [|left; lia]. right. rewrite HmL.
        unfold mvL. rewrite decide_False by done. rewrite decide_True by done. lia. }
      assert ((new <? px ind x) && bool_decide (s ∈ on_right m) = false) as ->.
      { apply andb_false_iff. rewrite Nat.ltb_ge, bool_decide_eq_false.
        destruct (decide (new < px ind x)); [|left; lia]. right. rewrite HmR.
        unfold mvR. rewrite decide_False by done. rewrite decide_True by done. lia. }
      left. done.
    + destruct (Nat.ltb_spec (px ind x) new) as [Hlt|Hge]; cbn [andb].
      * case_bool_decide as Hsl.
        -- right. eexists. split_and!; [done|done| |]; cbn.
           ++ intros y. unfold mvL. rewrite decide_False by done.
              rewrite elem_of_difference, elem_of_singleton, HmL. destruct (decide (y = s)) as [->|]; [|tauto]. split; [tauto|lia].
           ++ intros y. unfold mvR. rewrite decide_False by done.
              rewrite elem_of_union, elem_of_singleton, HmR. destruct (decide (y = s)) as [->|]; [|tauto]. tauto.
        -- destruct (Nat.ltb_spec new (px ind x)); [lia|]. cbn [andb]. left. split; [done|].
           rewrite HmL in Hsl. split; intros y; [rewrite HmL; unfold mvL|rewrite HmR; unfold mvR]; rewrite decide_False by done;
             (destruct (decide (y = s)) as [->|]; [|done]).
           ++ split; [tauto|lia].
           ++ tauto.
      * destruct (Nat.ltb_spec new (px ind x)) as [Hlt|Heq]; cbn [andb].
        -- case_bool_decide as Hsr.
           ++ right. eexists. split_and!; [done|done| |]; cbn.
              ** intros y. unfold mvL. rewrite decide_False by done.
                 rewrite elem_of_union, elem_of_singleton, HmL. destruct (decide (y = s)) as [->|]; tauto.
              ** intros y. unfold mvR. rewrite decide_False by done.
                 rewrite elem_of_difference, elem_of_singleton, HmR. destruct (decide (y = s)) as [->|]; [|tauto]. split; [tauto|lia].
           ++ left. split; [done|]. rewrite HmR in Hsr.
              split; intros y; [rewrite HmL; unfold mvL|rewrite HmR; unfold mvR]; rewrite decide_False by done;
                (destruct (decide (y = s)) as [->|]; [|done]).
              ** tauto.
              ** split; [tauto|lia].
        -- left. split; [done|]. assert (px ind x = new) by lia.
           split; intros y; [rewrite HmL; unfold mvL|rewrite HmR; unfold mvR]; rewrite decide_False by done;
             (destruct (decide (y = s)) as [->|]; [|done]).
           ++ split; [tauto|]. intros [[_ ?]|[? _]]; [lia|done].
           ++ split; [tauto|]. intros [[_ ?]|[? _]]; [lia|done].
  - exists nodes'. split; [done|]. eapply og_rep_ext; [exact Hn'| |]; cbv beta; intros x y Hxo.
    + unfold mvL at 1. destruct (decide (x = s)) as [->|Hne]; [done|].
      destruct (decide (px ind x ∈ needs)) as [Hx|Hx].
      * unfold mvL. by rewrite (decide_False (P:=x=s)) by done.
      * destruct (decide (y = s)) as [->|]; [|done].
        assert (¬ (Lf x s ∨ Rt x s)); [|tauto]. intros Hc%Hsym. apply Hx, Hneeds. exists x. split; [by apply Hnb|done].
    + unfold mvR at 1. destruct (decide (x = s)) as [->|Hne]; [done|].
      destruct (decide (px ind x ∈ needs)) as [Hx|Hx].
      * unfold mvR. by rewrite (decide_False (P:=x=s)) by done.
      * destruct (decide (y = s)) as [->|]; [|done].
        assert (¬ (Lf x s ∨ Rt x s)); [|tauto]. intros Hc%Hsym. apply Hx, Hneeds. exists x. split; [by apply Hnb|done].
Qed.

(** The transposition of [u] and [v]. *)
Definition tau (u v x : N) : N := if decide (x = u) then v else if decide (x = v) then u else x.
Lemma tau_invol u v x : tau u v (tau u v x) = x.
Proof. unfold tau. repeat case_decide; congruence. Qed.
Lemma swap_order_lookup u v order i x : swap_order u v order !! i = Some x ↔ order !! i = Some (tau u v x).
Proof.
  unfold swap_order. rewrite list_lookup_fmap, fmap_Some. split.
  - intros (y & Hy & ->). rewrite Hy. f_equal. symmetry. apply (tau_invol u v y).
  - intros Hx. exists (tau u v x). split; [done|]. symmetry. apply (tau_invol u v x).
Qed.
Lemma swap_order_before u v order x y : before (swap_order u v order) x y ↔ before order (tau u v x) (tau u v y).
Proof. unfold before, pos. by setoid_rewrite swap_order_lookup. Qed.
Lemma swap_order_elem u v order x : u ∈ order → v ∈ order → x ∈ swap_order u v order ↔ x ∈ order.
Proof.
  intros Hu Hv. rewrite elem_of_list_lookup. setoid_rewrite swap_order_lookup. rewrite <- elem_of_list_lookup.
  unfold tau. repeat case_decide; subst; tauto.
Qed.

(** Left and right sets after [swap u v] starting from exact sets: exact for the new order
    except that adjacent [u], [v] end up in each other's right set. *)
Definition swL (G : graph) (order : list N) (u v x y : N) : Prop :=
  adj G x y ∧ before order y x ∧ ¬ ((x = u ∧ y = v) ∨ (x = v ∧ y = u)).
Definition swR (G : graph) (order : list N) (u v x y : N) : Prop :=
  adj G x y ∧ (before order x y ∨ (x = u ∧ y = v) ∨ (x = v ∧ y = u)).

Lemma og_swap_spec G order g u v : graph_wf G → loopless G → og_exact G order g →
  u ∈ order → v ∈ order → u ≠ v →
  ∃ g', og_swap g u v = Ok g' ∧ og_m g' = og_m g ∧
    og_rep (og_indices g') (og_nodes g') (swap_order u v order)
      (swL G (swap_order u v order) u v) (swR G (swap_order u v order) u v).
Proof.
  intros Hwf Hloop Hex Hu Hv Hne. pose proof (oe_rep _ _ _ Hex) as H. pose proof (or_pos _ _ _ _ _ H) as Hp.
  pose proof (oe_cover _ _ _ Hex) as Hcov.
  unfold og_swap. rewrite bool_decide_false by done. set (ind := og_indices g) in *.
  destruct (px_lookup _ _ _ Hp Hu) as [Hu1 Hu2]. destruct (px_lookup _ _ _ Hp Hv) as [Hv1 Hv2]. rewrite Hu1, Hv1.
  assert (∀ x y, before order x y ↔ x ∈ order ∧ y ∈ order ∧ px ind x < px ind y) as Hbef by (intros; by apply px_before).
  assert (∀ x y, adj G x y → x ∈ order ∧ y ∈ order ∧ x ≠ y ∧ px ind x ≠ px ind y) as Hadj.
  { intros x y Hxy. assert (x ∈ order) by (by eapply Hcov). assert (y ∈ order) by (by eapply Hcov, (wf_adj_sym _ Hwf)).
    assert (x ≠ y) by (intros ->; by apply Hloop in Hxy). split_and!; try done. intros ?. by eapply px_inj in Hp. }
  assert (∀ x y, adj G x y ↔ adj G y x) as Hsy by (intros; split; apply (wf_adj_sym _ Hwf)).
  assert (px ind u ≠ px ind v) as Hpne by (intros ?; by eapply px_inj in Hp).
  set (L0 := λ x y, adj G x y ∧ before order y x) in *.
  set (R0 := λ x y, adj G x y ∧ before order x y) in *.
  assert (∀ x y, L0 x y ∨ R0 x y ↔ adj G x y) as H0.
  { intros x y. unfold L0, R0. rewrite !Hbef. split; [tauto|]. intros Hxy. destruct (Hadj x y Hxy) as (? & ? & ? & ?).
    destruct (decide (px ind x < px ind y)); [tauto|]. left. split_and!; try done. lia. }
  destruct (og_move_spec ind (og_nodes g) order L0 R0 u (px ind v) H Hu) as (n1 & -> & H1).
  { intros x Hx%H0. destruct (Hadj _ _ Hx) as (? & ? & ? & ?). auto. }
  { intros x. rewrite !H0. apply Hsy. }
  { intros x [[_ H2] [_ H3]]. apply Hbef in H2, H3. lia. }
  cbn [mbind res_bind].
  set (L1 := mvL ind u (px ind v) L0 R0) in *. set (R1 := mvR ind u (px ind v) L0 R0) in *.
  assert (∀ x, L1 v x ∨ R1 v x ↔ adj G v x) as HA1.
  { intros x. unfold L1, R1, mvL, mvR. rewrite !(decide_False (P:=v=u)) by done.
    destruct (decide (x = u)) as [->|]; [|apply H0]. rewrite <- H0. split; [intros [[[? ?]|[? ?]]|[[? ?]|[? ?]]]; lia || tauto|intros [?|?]; [left|right]; right; done]. }
  assert (∀ x, L1 x v ∨ R1 x v ↔ adj G x v) as HA2.
  { intros x. unfold L1, R1, mvL, mvR.
    destruct (decide (x = u)) as [->|].
    - rewrite H0. split; [intros [[? ?]|[? ?]]; done|intros ?; right; split; [done|lia]].
    - rewrite !(decide_False (P:=v=u)) by done. apply H0. }
  destruct (og_move_spec ind n1 order L1 R1 v (px ind u) H1 Hv) as (n2 & -> & H2).
  { intros x Hx%HA1. destruct (Hadj _ _ Hx) as (? & ? & ? & ?). auto. }
  { intros x. rewrite HA1, HA2. apply Hsy. }
  { intros x. unfold L1, R1, mvL, mvR. destruct (decide (x = u)); [lia|]. rewrite !(decide_False (P:=v=u)) by done.
    unfold L0, R0. rewrite !Hbef. lia. }
  cbn [mbind res_bind].
  destruct (og_rep_lookup _ _ _ _ _ _ _ H2 Hu2) as (a & Ha & Hav & HaL & HaR).
  destruct (og_rep_lookup _ _ _ _ _ _ _ H2 Hv2) as (b & Hb & Hbv & HbL & HbR).
  rewrite Ha, Hb. cbn [unwrap mbind res_bind]. eexists; split; [done|]. split; [done|]. cbn.
  set (L2 := mvL ind v (px ind u) L1 R1) in *. set (R2 := mvR ind v (px ind u) L1 R1) in *.
  assert (∀ x, x ∈ order → x ≠ u → px ind x ≠ px ind u) as Hxu by (intros x Hx Hxu ?; apply Hxu; by eapply px_inj).
  assert (∀ x, x ∈ order → x ≠ v → px ind x ≠ px ind v) as Hxv by (intros x Hx Hxv ?; apply Hxv; by eapply px_inj).
  assert (∀ x y, x ∈ order → L2 x y ↔ swL G (swap_order u v order) u v x y) as HLf.
  { intros x y Hx. unfold swL. rewrite swap_order_before. unfold tau. rewrite Hbef.
    unfold L2, mvL.
    destruct (decide (x = v)) as [->|Hxnv].
    - rewrite HA1. rewrite (decide_False (P:=v=u)) by done.
      destruct (decide (y = u)) as [->|]; [split; [lia|tauto]|]. destruct (decide (y = v)) as [->|].
      + split; [intros [?%Hloop _]; done|]. intros (?%Hloop & _). done.
      + split; [|tauto]. intros [Hvy ?]. destruct (Hadj _ _ Hvy) as (? & ? & ? & ?). split_and!; try done. intros [[? _]|[_ ?]]; done.
    - destruct (decide (y = v)) as [->|Hynv].
      + rewrite HA2. rewrite (decide_False (P:=v=u)) by done.
        destruct (decide (x = u)) as [->|Hxnu].
        * split; [|tauto]. intros [[_ ?]|[Hc _]]; [lia|]. unfold L1, mvL in Hc. rewrite decide_True in Hc by done. lia.
        * split.
          -- intros [[? ?]|[_ ?]]; [|by apply Hxu in Hx]. split_and!; try done. intros [[? _]|[? _]]; done.
          -- intros (? & (_ & _ & ?) & _). auto.
      + unfold L1, mvL. destruct (decide (x = u)) as [->|Hxnu].
        * rewrite H0. destruct (decide (y = u)) as [->|].
          -- split; [intros [?%Hloop _]; done|]. intros (?%Hloop & _). done.
          -- split; [|tauto]. intros [Hvy ?]. destruct (Hadj _ _ Hvy) as (? & ? & ? & ?). split_and!; try done. intros [[_ ?]|[? _]]; done.
        * destruct (decide (y = u)) as [->|].
          -- rewrite H0. split.
             ++ intros [[? ?]|[_ ?]]; [|by apply Hxv in Hx]. split_and!; try done. intros [[? _]|[? _]]; done.
             ++ intros (? & (_ & _ & ?) & _). auto.
          -- unfold L0. rewrite Hbef. split; [|tauto]. intros (? & ?). split_and!; try tauto. }
  assert (∀ x y, x ∈ order → R2 x y ↔ swR G (swap_order u v order) u v x y) as HRt.
  { intros x y Hx. unfold swR. rewrite swap_order_before. unfold tau. rewrite Hbef.
    unfold R2, mvR.
    destruct (decide (x = v)) as [->|Hxnv].
    - rewrite HA1. rewrite (decide_False (P:=v=u)) by done.
      destruct (decide (y = u)) as [->|Hynu].
      + split; [tauto|]. intros [? _]. split; [done|lia].
      + destruct (decide (y = v)) as [->|].
        * split; [intros [?%Hloop _]; done|]. intros (?%Hloop & _). done.
        * split.
          -- intros [Hvy ?]. destruct (Hadj _ _ Hvy) as (? & ? & ? & ?). split; [done|]. left. split_and!; try done.
             assert (px ind y ≠ px ind u); [by apply Hxu|lia].
          -- intros [? [(_ & _ & ?)|[[? _]|[_ ?]]]]; [|done|done]. split; [done|lia].
    - destruct (decide (y = v)) as [->|Hynv].
      + rewrite HA2. rewrite (decide_False (P:=v=u)) by done.
        destruct (decide (x = u)) as [->|Hxnu].
        * split.
          -- intros [[_ ?]|[Hc _]]; [lia|]. unfold R1, mvR in Hc. rewrite decide_True in Hc by done. rewrite H0 in Hc. tauto.
          -- intros [? _]. right. unfold R1, mvR. rewrite decide_True by done. rewrite H0. split; [|done]. split; [done|lia].
        * split.
          -- intros [[? ?]|[_ ?]]; [|by apply Hxu in Hx]. split; [done|]. by left.
          -- intros (? & [(_ & _ & ?)|[[? _]|[? _]]]); [auto|done|done].
      + unfold R1, mvR. destruct (decide (x = u)) as [->|Hxnu].
        * rewrite H0. destruct (decide (y = u)) as [->|].
          -- split; [intros [?%Hloop _]; done|]. intros (?%Hloop & _). done.
          -- split.
             ++ intros [Huy ?]. destruct (Hadj _ _ Huy) as (? & ? & ? & ?). split; [done|]. left. split_and!; try done.
                assert (px ind y ≠ px ind v); [by apply Hxv|lia].
             ++ intros [? [(_ & _ & ?)|[[_ ?]|[_ ?]]]]; [|done|done]. split; [done|lia].
        * destruct (decide (y = u)) as [->|].
          -- rewrite H0. split.
             ++ intros [[? ?]|[_ ?]]; [|by apply Hxv in Hx]. split; [done|]. by left.
             ++ intros (? & [(_ & _ & ?)|[[? _]|[? _]]]); [auto|done|done].
          -- unfold R0. rewrite Hbef. split; [tauto|]. intros (? & [?|[[? _]|[? _]]]); [tauto|done|done]. }
  split.
  - intros x i. rewrite swap_order_lookup. etrans; [|apply (Hp (tau u v x) i)]. unfold tau.
    destruct (decide (x = u)) as [->|Hxu'].
    + rewrite lookup_insert_ne, lookup_insert by done. by rewrite Hv1.
    + destruct (decide (x = v)) as [->|]; [rewrite lookup_insert; by rewrite Hu1|]. by rewrite !lookup_insert_ne by done.
  - apply list_eq. intros i. apply option_eq. intros x. rewrite swap_order_lookup.
    rewrite !list_fmap_insert, Hav, Hbv, (or_nodes _ _ _ _ _ H2).
    assert (NoDup order) as Hnd by (by eapply pos_map_NoDup).
    assert (px ind u < length order ∧ px ind v < length order) as [Hlu Hlv] by (split; by eapply lookup_lt_Some).
    destruct (decide (i = px ind v)) as [->|Hiv].
    + rewrite list_lookup_insert by (by rewrite insert_length). rewrite Hv2. unfold tau.
      repeat case_decide; naive_solver.
    + rewrite list_lookup_insert_ne by done. destruct (decide (i = px ind u)) as [->|Hiu].
      * rewrite list_lookup_insert by done. rewrite Hu2. unfold tau. repeat case_decide; naive_solver.
      * rewrite list_lookup_insert_ne by done. unfold tau.
        assert (order !! i ≠ Some u) as Hiu' by (intros Hc; apply Hiu; by eapply NoDup_lookup).
        assert (order !! i ≠ Some v) as Hiv' by (intros Hc; apply Hiv; by eapply NoDup_lookup).
        repeat case_decide; naive_solver.
  - intros i n Hi.
    assert (px ind u < length n2 ∧ px ind v < length n2) as [Hlu Hlv] by (split; by eapply lookup_lt_Some).
    destruct (decide (i = px ind v)) as [->|Hiv].
    + rewrite list_lookup_insert in Hi by (by rewrite insert_length). injection Hi as <-. rewrite Hav.
      split; intros y; [by rewrite HaL, HLf|by rewrite HaR, HRt].
    + rewrite list_lookup_insert_ne in Hi by done. destruct (decide (i = px ind u)) as [->|Hiu].
      * rewrite list_lookup_insert in Hi by done. injection Hi as <-. rewrite Hbv.
        split; intros y; [by rewrite HbL, HLf|by rewrite HbR, HRt].
      * rewrite list_lookup_insert_ne in Hi by done.
        assert (on_v n ∈ order) as Hno.
        { rewrite <- (or_nodes _ _ _ _ _ H2). apply elem_of_list_fmap. exists n. split; [done|]. by eapply elem_of_list_lookup_2. }
        destruct (or_sets _ _ _ _ _ H2 _ _ Hi) as [H3 H4].
        split; intros y; [by rewrite H3, HLf|by rewrite H4, HRt].
Qed.

End with_iter.
