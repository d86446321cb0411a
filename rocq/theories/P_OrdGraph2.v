(** The LinearGraph view of exact OrdGraphs, and the default methods of LinearGraph. *)
From Verif Require Import Base Spec M_Graph M_Iterators M_Algorithms M_OrdGraph S_Graph S_Linear
  P_EditGraph P_EditGraph2 P_Graph P_Iterators P_Degeneracy P_OrdGraph.

(** ** Sorting by position *)
Lemma sort_by_index_spec ind order l : pos_map ind order → NoDup l → (∀ x, x ∈ l → x ∈ order) →
  ∃ l', sort_by_index ind l = Ok l' ∧ l' ≡ₚ l ∧
    (∀ i j x y, l' !! i = Some x → l' !! j = Some y → i < j → before order x y).
Proof.
  intros Hp Hnd Hl. unfold sort_by_index.
  assert (mapM (λ v, i ← unwrap (ind !! v); Ok (i, v)) l = Ok ((λ v, (px ind v, v)) <$> l)) as ->.
  { clear Hnd. induction l as [|x l IH]; [done|]. cbn [mapM].
    destruct (px_lookup ind order x Hp) as [Hx _]; [apply Hl; set_solver|]. rewrite Hx. cbn [unwrap mbind res_bind].
    rewrite IH by set_solver. done. }
  cbn [mbind res_bind]. eexists; split; [done|].
  set (ks := (λ v, (px ind v, v)) <$> l).
  pose proof (merge_sort_Permutation key_le ks) as Hperm.
  assert (Total key_le) as Htot by (intros p q; unfold key_le; lia).
  assert (Transitive key_le) as Htr by (intros p q r; unfold key_le; lia).
  pose proof (StronglySorted_merge_sort key_le ks) as Hss.
  set (ks' := merge_sort key_le ks) in *. clearbody ks'.
  assert (ks'.*2 ≡ₚ l) as Hp2.
  { rewrite Hperm. unfold ks. rewrite <- list_fmap_compose. unfold compose. cbn. by rewrite list_fmap_id. }
  split; [done|]. intros i j x y Hi Hj Hlt.
  assert (x ∈ l ∧ y ∈ l) as [Hx Hy].
  { rewrite <- Hp2. split; by eapply elem_of_list_lookup_2. }
  assert (x ≠ y) as Hxy.
  { intros <-. assert (i = j); [|lia]. eapply NoDup_lookup; [|exact Hi|exact Hj]. by rewrite Hp2. }
  apply (px_before ind order _ _ Hp). split_and!; [by apply Hl|by apply Hl|].
  rewrite list_lookup_fmap in Hi, Hj.
  destruct (ks' !! i) as [[a x']|] eqn:Ei; [|done]. destruct (ks' !! j) as [[b y']|] eqn:Ej; [|done].
  cbn in Hi, Hj. injection Hi as ->. injection Hj as ->.
  assert (∀ k z, (k, z) ∈ ks' → k = px ind z) as Hk.
  { intros k z. rewrite Hperm. unfold ks. intros (z' & [= -> ->] & _)%elem_of_list_fmap. done. }
  assert (a = px ind x) as -> by (apply Hk; by eapply elem_of_list_lookup_2).
  assert (b = px ind y) as -> by (apply Hk; by eapply elem_of_list_lookup_2).
  assert (px ind x ≤ px ind y) as Hle.
  { clear -Hss Ei Ej Hlt. revert i j Ei Ej Hlt. induction Hss as [|p l' Hs IH Hf]; intros i j Hi Hj Hlt; [done|].
    destruct j as [|j]; [lia|]. destruct i as [|i].
    - cbn in Hi, Hj. injection Hi as ->. rewrite Forall_forall in Hf.
      apply (Hf (px ind y, y)). by eapply elem_of_list_lookup_2.
    - eapply (IH i j); [done|done|lia]. }
  assert (px ind x ≠ px ind y); [|lia]. intros Heq. apply Hxy. eapply px_inj; [exact Hp| | |done]; by apply Hl.
Qed.

Lemma lists_in_order_of order P l : (∀ x, x ∈ l ↔ P x) →
  (∀ i j x y, l !! i = Some x → l !! j = Some y → i < j → before order x y) → lists_in_order order P l.
Proof. by split. Qed.

Section with_iter.
Context `{HI : HashIter}.
Context (G : graph) (order : list N) (g : ordgraph).
Context (Hwf : graph_wf G) (Hloop : loopless G) (Hex : og_exact G order g).

Local Notation ind := (og_indices g).
Lemma oe_pos : pos_map ind order.
Proof. apply (oe_rep _ _ _ Hex). Qed.
Lemma oe_nd : NoDup order.
Proof. eapply pos_map_NoDup, oe_pos. Qed.

Lemma og_verts : vertices (og_graph g) = order.
Proof. apply (oe_rep _ _ _ Hex). Qed.
Lemma og_vtx u : vtx (og_graph g) u ↔ u ∈ order.
Proof. unfold vtx. cbn. rewrite bool_decide_eq_true. symmetry. apply pos_map_elem, oe_pos. Qed.
Lemma og_node_spec u : u ∈ order →
  ∃ n, og_indices g !! u = Some (px ind u) ∧ og_nodes g !! px ind u = Some n ∧ og_node g u = Some n ∧
  (∀ y, y ∈ on_left n ↔ adj G u y ∧ before order y u) ∧ (∀ y, y ∈ on_right n ↔ adj G u y ∧ before order u y).
Proof.
  intros Hu. destruct (px_lookup _ _ _ oe_pos Hu) as [H1 H2].
  destruct (og_rep_lookup _ _ _ _ _ _ _ (oe_rep _ _ _ Hex) H2) as (n & Hn & Hv & HL & HR).
  exists n. unfold og_node. rewrite H1. cbn. auto.
Qed.
Lemma adj_before u v : adj G u v → before order v u ∨ before order u v.
Proof.
  intros Huv. rewrite !(px_before ind order) by apply oe_pos.
  assert (u ∈ order) by (by eapply (oe_cover _ _ _ Hex)).
  assert (v ∈ order) by (by eapply (oe_cover _ _ _ Hex), (wf_adj_sym _ Hwf)).
  assert (px ind u ≠ px ind v).
  { intros Heq. assert (u = v) as -> by (by eapply px_inj; [apply oe_pos|..]). by apply Hloop in Huv. }
  destruct (decide (px ind u < px ind v)); [right; done|left; split_and!; try done; lia].
Qed.
Lemma before_irrefl u v : before order u v → ¬ before order v u.
Proof. rewrite !(px_before ind order) by apply oe_pos. lia. Qed.
Lemma og_adj u v : adj (og_graph g) u v ↔ adj G u v.
Proof.
  unfold adj at 1. cbn. destruct (decide (u ∈ order)) as [Hu|Hu].
  - destruct (og_node_spec u Hu) as (n & _ & _ & -> & HL & HR).
    rewrite orb_true_iff, !bool_decide_eq_true, HL, HR. split; [tauto|]. intros Huv. destruct (adj_before _ _ Huv); tauto.
  - unfold og_node. destruct (og_indices g !! u) as [i|] eqn:E.
    + destruct Hu. apply (pos_map_elem _ _ _ oe_pos). eauto.
    + cbn. split; [done|]. intros Huv. destruct Hu. by eapply (oe_cover _ _ _ Hex).
Qed.

Lemma og_graph_wf : graph_wf (og_graph g).
Proof.
  split.
  - intros u. by rewrite og_verts, og_vtx.
  - rewrite og_verts. apply oe_nd.
  - cbn. by rewrite fmap_length.
  - intros u v Huv%og_adj. apply og_vtx. by eapply (oe_cover _ _ _ Hex).
  - intros u v Huv%og_adj. apply og_adj. by apply (wf_adj_sym _ Hwf).
  - intros u Hu%og_vtx. destruct (og_node_spec u Hu) as (n & E1 & E2 & E3 & HL & HR). cbn. rewrite E1, E2. cbn.
    exists (on_neighbours n). split_and!; [done| | |].
    + unfold on_neighbours. apply NoDup_app. split_and!; [apply NoDup_hash_iter| |apply NoDup_hash_iter].
      intros x. rewrite !elem_of_hash_iter, HL, HR. intros [_ H1] [_ H2]. by eapply before_irrefl.
    + intros v. rewrite on_neighbours_elem, HL, HR, og_adj. split; [tauto|]. intros Huv. destruct (adj_before _ _ Huv); tauto.
    + rewrite E3.
      assert (¬ (u ∈ on_left n ∨ u ∈ on_right n)) as Hn by (rewrite HL, HR; intros [[?%Hloop _]|[?%Hloop _]]; done).
      rewrite !bool_decide_false by tauto. cbn. unfold on_neighbours. rewrite app_length, !hash_iter_length. lia.
  - destruct (wf_num_edges _ Hwf) as (E & HE & Hm). exists E. split.
    + intros u v. by rewrite HE, og_adj.
    + cbn. by rewrite (oe_m _ _ _ Hex).
Qed.

Lemma og_left_spec u : u ∈ order → ∃ l, og_left_neighbours g u = Ok l ∧
  lists_in_order order (λ v, adj G u v ∧ before order v u) l.
Proof.
  intros Hu. destruct (og_node_spec u Hu) as (n & E1 & E2 & E3 & HL & HR). unfold og_left_neighbours. rewrite E1. cbn [unwrap mbind res_bind].
  rewrite E2. cbn [unwrap mbind res_bind].
  destruct (sort_by_index_spec ind order (hash_iter 3 (on_left n)) oe_pos) as (l & Hl & Hperm & Hs).
  - apply NoDup_hash_iter.
  - intros x. rewrite elem_of_hash_iter, HL. intros [_ Hb]. by apply before_cons_inv in Hb as [? ?].
  - exists l. split; [done|]. split; [|done]. intros x. by rewrite Hperm, elem_of_hash_iter, HL.
Qed.
Lemma og_right_spec u : u ∈ order → ∃ l, og_right_neighbours g u = Ok l ∧
  lists_in_order order (λ v, adj G u v ∧ before order u v) l.
Proof.
  intros Hu. destruct (og_node_spec u Hu) as (n & E1 & E2 & E3 & HL & HR). unfold og_right_neighbours. rewrite E1. cbn [unwrap mbind res_bind].
  rewrite E2. cbn [unwrap mbind res_bind].
  destruct (sort_by_index_spec ind order (hash_iter 2 (on_right n)) oe_pos) as (l & Hl & Hperm & Hs).
  - apply NoDup_hash_iter.
  - intros x. rewrite elem_of_hash_iter, HR. intros [_ Hb]. by apply before_cons_inv in Hb as [? ?].
  - exists l. split; [done|]. split; [|done]. intros x. by rewrite Hperm, elem_of_hash_iter, HR.
Qed.

Lemma og_lgraph_wf : lgraph_wf (og_lgraph g).
Proof.
  split.
  - apply og_graph_wf.
  - intros u Hu%og_adj. by apply Hloop in Hu.
  - intros u Hu%og_vtx. destruct (px_lookup _ _ _ oe_pos Hu) as [H1 _]. exists (px ind u). cbn. by rewrite H1.
  - intros u Hu. rewrite og_vtx in Hu. cbn. destruct (ind !! u) eqn:E; [|done]. destruct Hu. apply (pos_map_elem _ _ _ oe_pos). eauto.
  - intros u v i j Hi%unwrap_ok Hj%unwrap_ok. change (vertices (og_lgraph g)) with (vertices (og_graph g)).
    rewrite og_verts. symmetry. by eapply pos_map_before; [apply oe_pos|..].
  - intros u Hu%og_vtx. change (vertices (og_lgraph g)) with (vertices (og_graph g)). rewrite og_verts.
    destruct (og_left_spec u Hu) as (l & Hl & [H1 H2]). exists l. split; [done|]. split; [|done].
    intros x. rewrite H1. by rewrite og_adj.
  - intros u Hu%og_vtx. change (vertices (og_lgraph g)) with (vertices (og_graph g)). rewrite og_verts.
    destruct (og_node_spec u Hu) as (n & E1 & E2 & E3 & HL & HR).
    exists (hash_iter 2 (on_right n)). split_and!; [apply NoDup_hash_iter| |].
    + cbn. by rewrite E3, hash_iter_length.
    + intros v. by rewrite elem_of_hash_iter, HR, og_adj.
Qed.
End with_iter.

(** Sequences of swaps of non-adjacent vertices keep the OrdGraph exact. *)
Section swaps.
Context `{HI : HashIter}.
Lemma og_swap_exact G order g u v : graph_wf G → loopless G → og_exact G order g →
  ¬ adj G u v →
  ∃ g', og_swap g u v = Ok g' ∧
    og_exact G (if decide (u ∈ order ∧ v ∈ order) then swap_order u v order else order) g'.
Proof.
  intros Hwf Hloop Hex Hn. destruct (decide (u = v)) as [->|Hne].
  { unfold og_swap. rewrite bool_decide_true by done. exists g. split; [done|].
    replace (swap_order v v order) with order; [by case_decide|].
    unfold swap_order. rewrite <- (list_fmap_id order) at 1. apply list_fmap_ext. intros i x _. cbn. by repeat case_decide. }
  case_decide as Hin.
  - destruct Hin as [Hu Hv]. destruct (og_swap_spec G order g u v Hwf Hloop Hex Hu Hv Hne) as (g' & -> & Hm & Hrep).
    exists g'. split; [done|]. split.
    + eapply og_rep_ext; [exact Hrep| |]; cbv beta; intros x y _; unfold swL, swR.
      * split; [|tauto]. intros [Hxy Hb]. split_and!; [done|done|]. intros [[-> ->]|[-> ->]]; [done|].
        by apply Hn, (wf_adj_sym _ Hwf).
      * split; [tauto|]. intros [Hxy [Hb|[[-> ->]|[-> ->]]]]; [done|done|]. exfalso. by apply Hn, (wf_adj_sym _ Hwf).
    + intros x y Hxy. apply swap_order_elem; [done|done|]. by eapply (oe_cover _ _ _ Hex).
    + rewrite Hm. apply Hex.
  - unfold og_swap. rewrite bool_decide_false by done. exists g. split; [|done].
    pose proof (or_pos _ _ _ _ _ (oe_rep _ _ _ Hex)) as Hp.
    destruct (og_indices g !! u) eqn:Eu; [|done]. destruct (og_indices g !! v) eqn:Ev; [|done].
    destruct Hin. split; apply (pos_map_elem _ _ _ Hp); eauto.
Qed.
End swaps.

(** ** leftmost / rightmost *)
Lemma leftmost_spec L X : (∀ x, x ∈ X → ∃ i, index_of L x = Ok i) →
  ∃ r, leftmost L X = Ok r ∧ (r = None ↔ X = []) ∧
    ∀ u, r = Some u → u ∈ X ∧ ∀ v i j, v ∈ X → index_of L u = Ok i → index_of L v = Ok j → i ≤ j.
Proof.
  intros HX. unfold leftmost.
  destruct (fold_res_inv (λ (best : option (nat * N)) u,
        i ← index_of L u;
        Ok match best with
           | None => Some (i, u)
           | Some (j, _) => if i <? j then Some (i, u) else best
           end)
    (λ pre best, match best with
       | None => pre = []
       | Some (i, u) => u ∈ pre ∧ index_of L u = Ok i ∧ ∀ v j, v ∈ pre → index_of L v = Ok j → i ≤ j end)
    X None) as (r & -> & Hr).
  - done.
  - intros l1 x l2 best -> Hb. destruct (HX x) as [i Hi]; [set_solver|]. rewrite Hi. cbn [mbind res_bind].
    eexists; split; [done|]. destruct best as [[j u]|].
    + destruct Hb as (Hu & Hj & Hmin). destruct (Nat.ltb_spec i j).
      * split_and!; [set_solver|done|]. intros v k [Hv| ->%elem_of_list_singleton]%elem_of_app Hk; [|rewrite Hi in Hk; injection Hk as <-; lia].
        specialize (Hmin v k Hv Hk). lia.
      * split_and!; [set_solver|done|]. intros v k [Hv| ->%elem_of_list_singleton]%elem_of_app Hk; [by eapply Hmin|rewrite Hi in Hk; injection Hk as <-; lia].
    + subst l1. cbn. split_and!; [set_solver|done|]. intros v k ->%elem_of_list_singleton Hk. rewrite Hi in Hk. injection Hk as <-. lia.
  - cbn [mbind res_bind]. eexists; split; [done|]. destruct r as [[i u]|]; cbn.
    + destruct Hr as (Hu & Hi & Hmin). split.
      * split; [done|]. intros ->. set_solver.
      * intros u' [= <-]. split; [done|]. intros v i' j Hv Hi' Hj. rewrite Hi in Hi'. injection Hi' as <-. by eapply Hmin.
    + split; [done|]. done.
Qed.
Lemma rightmost_spec L X : (∀ x, x ∈ X → ∃ i, index_of L x = Ok i) →
  ∃ r, rightmost L X = Ok r ∧ (r = None ↔ X = []) ∧
    ∀ u, r = Some u → u ∈ X ∧ ∀ v i j, v ∈ X → index_of L u = Ok i → index_of L v = Ok j → j ≤ i.
Proof.
  intros HX. unfold rightmost.
  destruct (fold_res_inv (λ (best : option (nat * N)) u,
        i ← index_of L u;
        Ok match best with
           | None => Some (i, u)
           | Some (j, _) => if j <=? i then Some (i, u) else best
           end)
    (λ pre best, match best with
       | None => pre = []
       | Some (i, u) => u ∈ pre ∧ index_of L u = Ok i ∧ ∀ v j, v ∈ pre → index_of L v = Ok j → j ≤ i end)
    X None) as (r & -> & Hr).
  - done.
  - intros l1 x l2 best -> Hb. destruct (HX x) as [i Hi]; [set_solver|]. rewrite Hi. cbn [mbind res_bind].
    eexists; split; [done|]. destruct best as [[j u]|].
    + destruct Hb as (Hu & Hj & Hmin). destruct (Nat.leb_spec j i).
      * split_and!; [set_solver|done|]. intros v k [Hv| ->%elem_of_list_singleton]%elem_of_app Hk; [|rewrite Hi in Hk; injection Hk as <-; lia].
        specialize (Hmin v k Hv Hk). lia.
      * split_and!; [set_solver|done|]. intros v k [Hv| ->%elem_of_list_singleton]%elem_of_app Hk; [by eapply Hmin|rewrite Hi in Hk; injection Hk as <-; lia].
    + subst l1. cbn. split_and!; [set_solver|done|]. intros v k ->%elem_of_list_singleton Hk. rewrite Hi in Hk. injection Hk as <-. lia.
  - cbn [mbind res_bind]. eexists; split; [done|]. destruct r as [[i u]|]; cbn.
    + destruct Hr as (Hu & Hi & Hmin). split.
      * split; [done|]. intros ->. set_solver.
      * intros u' [= <-]. split; [done|]. intros v i' j Hv Hi' Hj. rewrite Hi in Hi'. injection Hi' as <-. by eapply Hmin.
    + split; [done|]. done.
Qed.

(** ** Degrees *)
Lemma lists_in_order_NoDup order P l : NoDup order → lists_in_order order P l → NoDup l.
Proof.
  intros Hnd [_ Hl]. apply NoDup_alt. intros i j x Hi Hj.
  destruct (decide (i < j)) as [Hlt|]; [|destruct (decide (j < i)) as [Hlt|]; [|lia]].
  - destruct (Hl i j x x Hi Hj Hlt) as (a & b & Ha & Hb & ?). unfold pos in *. assert (a = b); [|lia]. by eapply NoDup_lookup.
  - destruct (Hl j i x x Hj Hi Hlt) as (a & b & Ha & Hb & ?). unfold pos in *. assert (a = b); [|lia]. by eapply NoDup_lookup.
Qed.

Lemma fold_max_spec {A} (f : A → nat) (l : list A) : ∀ m,
  let r := foldl (λ m u, max m (f u)) m l in
  (m ≤ r ∧ ∀ u, u ∈ l → f u ≤ r) ∧ (r = m ∨ ∃ u, u ∈ l ∧ f u = r).
Proof.
  induction l as [|a l IH]; intros m; cbn [foldl]; [split; [split; [done|set_solver]|by left]|].
  destruct (IH (max m (f a))) as [[H1 H2] H3]. cbv zeta. set (r := foldl _ _ l) in *. clearbody r. split; [split; [lia|]|].
  - intros u [->|Hu]%elem_of_cons; [lia|by apply H2].
  - destruct H3 as [->|(u & Hu & Hr)]; [|right; exists u; set_solver].
    destruct (Nat.max_spec m (f a)) as [[_ ->]|[_ ->]]; [right; exists a; set_solver|by left].
Qed.

Section with_iter2.
Context `{HI : HashIter}.
Lemma og_rep_left g order Lf Rt u : og_rep (og_indices g) (og_nodes g) order Lf Rt →
  u ∈ order → (∀ y, Lf u y → y ∈ order) →
  ∃ l, og_left_neighbours g u = Ok l ∧ lists_in_order order (Lf u) l.
Proof.
  intros H Hu Hsup. pose proof (or_pos _ _ _ _ _ H) as Hp. destruct (px_lookup _ _ _ Hp Hu) as [H1 H2].
  destruct (og_rep_lookup _ _ _ _ _ _ _ H H2) as (n & Hn & Hv & HL & HR).
  unfold og_left_neighbours. rewrite H1. cbn [unwrap mbind res_bind]. rewrite Hn. cbn [unwrap mbind res_bind].
  destruct (sort_by_index_spec _ order (hash_iter 3 (on_left n)) Hp) as (l & Hl & Hperm & Hs).
  - apply NoDup_hash_iter.
  - intros x. rewrite elem_of_hash_iter, HL. apply Hsup.
  - exists l. split; [done|]. split; [|done]. intros x. by rewrite Hperm, elem_of_hash_iter, HL.
Qed.
Lemma og_rep_right g order Lf Rt u : og_rep (og_indices g) (og_nodes g) order Lf Rt →
  u ∈ order → (∀ y, Rt u y → y ∈ order) →
  ∃ l, og_right_neighbours g u = Ok l ∧ lists_in_order order (Rt u) l.
Proof.
  intros H Hu Hsup. pose proof (or_pos _ _ _ _ _ H) as Hp. destruct (px_lookup _ _ _ Hp Hu) as [H1 H2].
  destruct (og_rep_lookup _ _ _ _ _ _ _ H H2) as (n & Hn & Hv & HL & HR).
  unfold og_right_neighbours. rewrite H1. cbn [unwrap mbind res_bind]. rewrite Hn. cbn [unwrap mbind res_bind].
  destruct (sort_by_index_spec _ order (hash_iter 2 (on_right n)) Hp) as (l & Hl & Hperm & Hs).
  - apply NoDup_hash_iter.
  - intros x. rewrite elem_of_hash_iter, HR. apply Hsup.
  - exists l. split; [done|]. split; [|done]. intros x. by rewrite Hperm, elem_of_hash_iter, HR.
Qed.
Lemma og_rep_adjacent g order Lf Rt u v : og_rep (og_indices g) (og_nodes g) order Lf Rt →
  adjacent (og_graph g) u v = true ↔ u ∈ order ∧ (Lf u v ∨ Rt u v).
Proof.
  intros H. pose proof (or_pos _ _ _ _ _ H) as Hp. cbn. destruct (decide (u ∈ order)) as [Hu|Hu].
  - destruct (px_lookup _ _ _ Hp Hu) as [H1 H2]. destruct (og_rep_lookup _ _ _ _ _ _ _ H H2) as (n & Hn & Hv & HL & HR).
    unfold og_node. rewrite H1. cbn. rewrite Hn. rewrite orb_true_iff, !bool_decide_eq_true, HL, HR. tauto.
  - unfold og_node. destruct (og_indices g !! u) as [i|] eqn:E.
    + destruct Hu. apply (pos_map_elem _ _ _ Hp). eauto.
    + cbn. split; [done|tauto].
Qed.
Lemma left_degree_spec L u : lgraph_wf L → vtx L u →
  ∃ l, left_neighbours L u = Ok l ∧ left_degree L u = Ok (length l).
Proof.
  intros H Hu. destruct (lwf_left _ H u Hu) as (l & Hl & _). exists l. split; [done|].
  unfold left_degree. unfold vtx in Hu. by rewrite Hu, Hl.
Qed.
(** The numeric left degree as a total function. *)
Definition ldeg (L : lgraph) (u : N) : nat := match left_neighbours L u with Ok l => length l | _ => 0 end.
Lemma left_degree_ldeg L u : lgraph_wf L → vtx L u → left_degree L u = Ok (ldeg L u).
Proof. intros H Hu. destruct (left_degree_spec L u H Hu) as (l & Hl & ->). unfold ldeg. by rewrite Hl. Qed.
Lemma max_left_degree_fold L : lgraph_wf L →
  max_left_degree L = Ok (foldl (λ m u, max m (ldeg L u)) 0 (vertices L)).
Proof.
  intros H. unfold max_left_degree.
  assert (∀ u, u ∈ vertices L → left_degree L u = Ok (ldeg L u)) as Hd.
  { intros u Hu. apply left_degree_ldeg; [done|]. by apply (wf_vertices _ (lwf_graph _ H)). }
  revert Hd. generalize (vertices L) as l. generalize 0 as m. intros m l. revert m.
  induction l as [|a l IH]; intros m Hd; [done|]. cbn [fold_res foldl]. rewrite Hd by set_solver. cbn [mbind res_bind].
  apply IH. set_solver.
Qed.
Lemma left_degrees_spec L : lgraph_wf L →
  ∃ m, left_degrees L = Ok m ∧ ∀ u, m !! u = if contains L u then Some (ldeg L u) else None.
Proof.
  intros H. unfold left_degrees.
  destruct (fold_res_inv (λ (m : gmap N nat) u, d ← left_degree L u; Ok (<[u := d]> m))
    (λ pre m, ∀ u, m !! u = if decide (u ∈ pre) then Some (ldeg L u) else None) (vertices L) ∅) as (m & -> & Hm).
  - intros u. rewrite decide_False by set_solver. apply lookup_empty.
  - intros l1 x l2 m Heq Hm. rewrite left_degree_ldeg; [|done|apply (wf_vertices _ (lwf_graph _ H)); rewrite Heq; set_solver].
    cbn [mbind res_bind]. eexists; split; [done|]. intros u. destruct (decide (u = x)) as [->|Hne].
    + rewrite lookup_insert, decide_True by set_solver. done.
    + rewrite lookup_insert_ne, Hm by done. destruct (decide (u ∈ l1)), (decide (u ∈ l1 ++ [x])); set_solver.
  - exists m. split; [done|]. intros u. rewrite Hm. pose proof (wf_vertices _ (lwf_graph _ H) u) as Hv. unfold vtx in Hv.
    destruct (contains L u), (decide (u ∈ vertices L)); naive_solver.
Qed.
End with_iter2.
