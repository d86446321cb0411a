(** The contexts built by the trace oracle. *)
From Verif Require Import Base Spec M_Graph M_Iterators M_EditGraph M_Algorithms M_OrdGraph M_DegenGraph M_Linear M_Trace
  S_Graph S_Linear S_Reach P_EditGraph P_Graph P_Iterators P_Degeneracy P_OrdGraph P_OrdGraph2 P_DegenGraph2 P_Linear P_Linear2 P_Trace.

(** ** Lists sorted by an order *)
Lemma ss_lookup {A} (R : A → A → Prop) l : StronglySorted R l ↔ ∀ i j x y, l !! i = Some x → l !! j = Some y → i < j → R x y.
Proof.
  split.
  - induction 1 as [|a l Hs IH Hf]; intros i j x y Hi Hj Hlt; [done|]. destruct j as [|j]; [lia|]. destruct i as [|i].
    + cbn in Hi, Hj. injection Hi as <-. rewrite Forall_forall in Hf. apply Hf. by eapply elem_of_list_lookup_2.
    + apply (IH i j); [done|done|lia].
  - induction l as [|a l IH]; intros Hl; [constructor|]. constructor.
    + apply IH. intros i j x y Hi Hj Hlt. apply (Hl (S i) (S j)); [done|done|lia].
    + rewrite Forall_forall. intros x [j Hj]%elem_of_list_lookup. apply (Hl 0 (S j)); [done|done|lia].
Qed.
Lemma ss_filter {A} (R : A → A → Prop) (P : A → Prop) `{∀ x, Decision (P x)} l : StronglySorted R l → StronglySorted R (filter P l).
Proof.
  induction 1 as [|a l Hs IH Hf]; [constructor|]. destruct (decide (P a)); [rewrite filter_cons_True by done|by rewrite filter_cons_False].
  constructor; [done|]. rewrite Forall_forall in *. intros x [_ Hx]%elem_of_list_filter. auto.
Qed.
Lemma lio_ss order P l : lists_in_order order P l ↔ (∀ x, x ∈ l ↔ P x) ∧ StronglySorted (before order) l.
Proof. unfold lists_in_order. by rewrite ss_lookup. Qed.
Lemma lio_filter order P (Q : N → Prop) `{∀ x, Decision (Q x)} l : lists_in_order order P l → lists_in_order order (λ x, P x ∧ Q x) (filter Q l).
Proof. rewrite !lio_ss. intros [H1 H2]. split; [|by apply ss_filter]. intros x. rewrite elem_of_list_filter, H1. tauto. Qed.
Lemma ss_take {A} (R : A → A → Prop) n l : StronglySorted R l → StronglySorted R (take n l).
Proof.
  rewrite !ss_lookup. intros Hl i j x y Hi Hj Hlt. apply (Hl i j); [|by eapply lookup_take_Some in Hj as [? _]|done].
  by eapply lookup_take_Some in Hi as [? _].
Qed.
Lemma lio_ext order (P Q : N → Prop) l : (∀ x, P x ↔ Q x) → lists_in_order order P l → lists_in_order order Q l.
Proof. intros He [H1 H2]. split; [|done]. intros x. by rewrite H1. Qed.

Section with_iter.
Context `{HI : HashIter}.
Context (g : degengraph) (HL : lgraph_wf (dg_lgraph g)).
Local Notation L := (dg_lgraph g).
Local Notation vs := (vertices (dg_lgraph g)).
Let HW := lwf_graph L HL.

(** The left neighbours of a vertex. *)
Definition lf (x : N) : list N := match dg_left_slice g x with Ok l => l | _ => [] end.
Lemma lf_ok x : vtx L x → dg_left_slice g x = Ok (lf x).
Proof. intros Hx. destruct (lwf_left L HL x Hx) as (l & Hl & _). cbn in Hl. unfold lf. by rewrite Hl. Qed.
Lemma lf_lio x : vtx L x → lists_in_order vs (λ v, adj L x v ∧ before vs v x) (lf x).
Proof. intros Hx. destruct (lwf_left L HL x Hx) as (l & Hl & Hlio). cbn in Hl. unfold lf. by rewrite Hl. Qed.
Lemma elem_of_lf x v : vtx L x → v ∈ lf x ↔ adj L x v ∧ before vs v x.
Proof. intros Hx. apply (proj1 (lf_lio x Hx)). Qed.
Lemma lf_vtx x v : vtx L x → v ∈ lf x → vtx L v.
Proof. intros Hx Hv. apply (elem_of_lf x v Hx) in Hv as [_ Hb]. by apply (before_vtx L HL) in Hb as [? _]. Qed.
Lemma vs_before_asym u v : before vs u v → ¬ before vs v u.
Proof.
  intros (i & j & Hi & Hj & Hlt) (i' & j' & Hi' & Hj' & Hlt'). unfold pos in *. pose proof (vs_nodup L HL) as Hnd.
  assert (i = j') by (by eapply NoDup_lookup). assert (j = i') by (by eapply NoDup_lookup). lia.
Qed.
Lemma vs_before_total u v : vtx L u → vtx L v → u ≠ v → before vs u v ∨ before vs v u.
Proof.
  rewrite <- !(vs_vtx L HL). intros [i Hi]%elem_of_list_lookup [j Hj]%elem_of_list_lookup Hne.
  destruct (Nat.lt_trichotomy i j) as [?|[->|?]]; [left; by exists i, j|congruence|right; by exists j, i].
Qed.
Lemma vs_before_trans u v w : before vs u v → before vs v w → before vs u w.
Proof.
  intros (i & j & Hi & Hj & Hlt) (j' & k & Hj' & Hk & Hlt'). unfold pos in *. pose proof (vs_nodup L HL) as Hnd.
  assert (j = j') as <- by (by eapply NoDup_lookup). exists i, k. split_and!; [done|done|lia].
Qed.

Lemma sort_vertices l : NoDup l → (∀ x, x ∈ l → vtx L x) →
  ∃ l', sort_by_index (dg_indices g) l = Ok l' ∧ l' ≡ₚ l ∧ lists_in_order vs (λ x, x ∈ l) l'.
Proof.
  intros Hnd Hl. unfold sort_by_index.
  set (ix := λ x, default 0 (dg_indices g !! x)).
  assert (∀ x, vtx L x → dg_indices g !! x = Some (ix x)) as Hix.
  { intros x Hx. destruct (lwf_index L HL x Hx) as [i Hi]. cbn in Hi. unfold dg_index_of in Hi. unfold ix.
    destruct (dg_indices g !! x); done. }
  assert (mapM (λ v, i ← unwrap (dg_indices g !! v); Ok (i, v)) l = Ok ((λ v, (ix v, v)) <$> l)) as ->.
  { clear Hnd. induction l as [|x l IH]; [done|]. cbn [mapM].
    rewrite (Hix x) by (apply Hl; set_solver). cbn [unwrap mbind res_bind]. rewrite IH by set_solver. done. }
  cbn [mbind res_bind]. eexists. split; [done|].
  set (ks := (λ v, (ix v, v)) <$> l).
  pose proof (merge_sort_Permutation key_le ks) as Hperm.
  assert (Total key_le) as Htot by (intros p q; unfold key_le; lia).
  assert (Transitive key_le) as Htr by (intros p q r; unfold key_le; lia).
  pose proof (StronglySorted_merge_sort key_le ks) as Hss.
  set (ks' := merge_sort key_le ks) in *. clearbody ks'.
  assert (ks'.*2 ≡ₚ l) as Hp2.
  { rewrite Hperm. unfold ks. rewrite <- list_fmap_compose. unfold compose. cbn. by rewrite list_fmap_id. }
  split; [done|]. apply lio_ss. split; [intros x; by rewrite Hp2|].
  apply ss_lookup. intros i j x y Hi Hj Hlt.
  assert (x ∈ l ∧ y ∈ l) as [Hx Hy].
  { rewrite <- Hp2. split; by eapply elem_of_list_lookup_2. }
  assert (x ≠ y) as Hxy.
  { intros <-. assert (i = j); [|lia]. eapply NoDup_lookup; [|exact Hi|exact Hj]. by rewrite Hp2. }
  rewrite list_lookup_fmap in Hi, Hj.
  destruct (ks' !! i) as [[a x']|] eqn:Ei; [|done]. destruct (ks' !! j) as [[b y']|] eqn:Ej; [|done].
  cbn in Hi, Hj. injection Hi as ->. injection Hj as ->.
  assert (∀ k z, (k, z) ∈ ks' → k = ix z) as Hk.
  { intros k z. rewrite Hperm. unfold ks. intros (z' & [= -> ->] & _)%elem_of_list_fmap. done. }
  assert (a = ix x) as -> by (apply Hk; by eapply elem_of_list_lookup_2).
  assert (b = ix y) as -> by (apply Hk; by eapply elem_of_list_lookup_2).
  assert (ix x ≤ ix y) as Hle.
  { rewrite ss_lookup in Hss. apply (Hss i j _ _ Ei Ej Hlt). }
  destruct (vs_before_total x y) as [?|Hyx]; [by apply Hl|by apply Hl|done|done|]. exfalso.
  apply (lwf_index_lt L HL y x (ix y) (ix x)) in Hyx; [lia| |]; cbn; unfold dg_index_of; by rewrite Hix by (by apply Hl).
Qed.

Lemma dedup_nodup l : NoDup l → dedup l = l.
Proof.
  induction 1 as [|x l Hx Hl IH]; [done|]. cbn [dedup]. destruct l as [|y l]; [done|].
  destruct (N.eqb_spec x y) as [->|Hne]; [set_solver|]. by rewrite IH.
Qed.

(** What is known about the context of [a]. *)
Record context_ok (a : N) (C : list N) : Prop := {
  co_lio : lists_in_order vs (λ w, w ∈ C) C;
  co_nodup : NoDup C;
  co_le : ∀ w, w ∈ C → w = a ∨ before vs w a;
  co_last : last C = Some a;
  co_reach : ∀ x w, vtx L x → a ∈ lf x → w ∈ lf x → before vs w a → w ∈ C;
}.
Lemma co_anchor a C : context_ok a C → a ∈ C.
Proof. intros HC. pose proof (co_last a C HC) as Hl. apply last_Some in Hl as [C' ->]. set_solver. Qed.

Lemma context_spec a : vtx L a → ∃ s C, sreach_set L a 2 = Ok s ∧
  sort_by_index (dg_indices g) (hash_iter 53 (dom s) ++ [a]) = Ok C ∧ dedup C = C ∧ context_ok a C.
Proof.
  intros Ha. destruct (sreach_set_spec L HL a 2 Ha) as (s & Hs & Hspec); [lia|vm_compute; done|]. exists s.
  assert (∀ w, w ∈ dom s → before vs w a) as Hdom.
  { intros w [k Hk]%elem_of_dom. by apply Hspec in Hk as [? _]. }
  assert (¬ before vs a a) as Hirr by (intros Hb; by apply (vs_before_asym a a Hb)).
  destruct (sort_vertices (hash_iter 53 (dom s) ++ [a])) as (C & HC & Hperm & Hlio).
  { apply NoDup_app. split_and!; [apply NoDup_hash_iter| |apply NoDup_singleton]. intros w. rewrite elem_of_hash_iter, elem_of_list_singleton.
    intros Hw ->. by apply Hirr, Hdom. }
  { intros w. rewrite elem_of_app, elem_of_hash_iter, elem_of_list_singleton. intros [Hw| ->]; [|done].
    apply Hdom in Hw. by apply (before_vtx L HL) in Hw as [? _]. }
  exists C. pose proof (lists_in_order_NoDup _ _ _ (vs_nodup L HL) Hlio) as Hnd.
  assert (∀ w, w ∈ C ↔ w ∈ dom s ∨ w = a) as Hmem.
  { intros w. rewrite Hperm, elem_of_app, elem_of_hash_iter, elem_of_list_singleton. done. }
  split_and!; [done|done|by apply dedup_nodup|]. split.
  - eapply lio_ext; [|exact Hlio]. intros w. cbn. by rewrite Hperm.
  - done.
  - intros w [Hw| ->]%Hmem; [right; by apply Hdom|by left].
  - destruct (last C) as [z|] eqn:Ez.
    + f_equal. assert (z ∈ C) as Hz by (apply last_Some in Ez as [? ->]; set_solver).
      apply Hmem in Hz as [Hz| ->]; [|done]. exfalso. apply Hdom in Hz.
      assert (a ∈ C) as [i Hi]%elem_of_list_lookup by (apply Hmem; by right).
      rewrite last_lookup in Ez. destruct (decide (i = pred (length C))) as [->|Hne].
      * assert (a = z) as -> by congruence. done.
      * apply (vs_before_asym z a Hz). eapply (proj2 Hlio); [exact Hi|exact Ez|]. apply lookup_lt_Some in Hi. lia.
    + apply last_None in Ez as ->. exfalso. assert (a ∈ @nil N) by (apply Hmem; by right). set_solver.
  - intros x w Hx Hax Hwx Hb. apply Hmem. left. apply elem_of_dom.
    apply (elem_of_lf x) in Hax as [Hxa Hba]; [|done]. apply (elem_of_lf x) in Hwx as [Hxw _]; [|done].
    assert (sreach_walk L a w 2) as H2.
    { exists [a; x]. split_and!; [done|done| |].
      - cbn. split_and!; [by apply (wf_adj_sym L HW)|done|done].
      - intros y [->|[->|Hy]%elem_of_cons]%elem_of_cons; [by left|by right|set_solver]. }
    assert (¬ sreach_walk L a w 0) as H0.
    { intros (q & Hq & Hh & _). destruct q; [|done]. cbn in Hh. injection Hh as ->. done. }
    assert (Decision (sreach_walk L a w 1)) as [H1|H1].
    { destruct (decide (adjacent L a w = true)) as [Haw|Haw].
      - left. exists [a]. split_and!; [done|done|done|]. intros y ->%elem_of_list_singleton. by left.
      - right. intros (q & Hq & Hh & Hw & _). destruct q as [|b [|? ?]]; [done| |done]. cbn in Hh. injection Hh as ->. by destruct Hw. }
    + exists 1. apply Hspec. split_and!; [done|lia|lia|]. split; [done|]. intros [|j] Hj; [done|lia].
    + exists 2. apply Hspec. split_and!; [done|lia|lia|]. split; [done|]. intros [|[|j]] Hj; [done|done|lia].
Qed.

(** Left neighbourhoods as bit sets over a context, and a context with its counters. *)
Definition lbits (C : list N) (x : N) : list bool := (λ w, bool_decide (w ∈ lf x)) <$> C.
Definition sctx_ok (xs : list N) (a : N) (c : sctx) : Prop :=
  context_ok a (sc_context c) ∧ sc_indices c = og_index_map (sc_context c) ∧
  tally (sc_right c) (lbits (sc_context c) <$> xs).
Definition oracle_ok (xs : N → list N) (m : gmap N sctx) : Prop :=
  ∀ a, vtx L a → ∃ c, m !! a = Some c ∧ sctx_ok (xs a) a c.

Lemma so_contexts_spec : ∃ m, so_contexts g = Ok m ∧ oracle_ok (λ _, []) m.
Proof.
  unfold so_contexts.
  match goal with |- ∃ m, fold_res ?f _ _ = _ ∧ _ => destruct (fold_res_inv f (λ vs' m, ∀ a, a ∈ vs' → ∃ c, m !! a = Some c ∧ sctx_ok [] a c) (vertices (dg_graph g)) ∅) as (m & Hm & HI') end.
  - set_solver.
  - intros v1 x v2 m Hvs IH. assert (vtx L x) as Hx. { apply (vs_vtx L HL). change vs with (vertices (dg_graph g)). rewrite Hvs. set_solver. }
    destruct (context_spec x Hx) as (s & C & -> & HC & Hd & Hok). cbn [mbind res_bind]. rewrite HC. cbn [mbind res_bind]. rewrite Hd.
    eexists. split; [done|]. intros a. destruct (decide (a = x)) as [->|Hne].
    + intros _. rewrite lookup_insert. eexists. split; [done|]. split_and!; [done|done|apply tally_empty].
    + rewrite lookup_insert_ne by done. intros Ha. apply IH. set_solver.
  - exists m. split; [done|]. intros a Ha. apply HI'. by apply (vs_vtx L HL).
Qed.

(** The prefix of the left neighbourhood of [x] up to [a] meets the context of [a] as the whole
    neighbourhood does. *)
Lemma sc_insert_spec c xs a x i : sctx_ok xs a c → vtx L x → lf x !! i = Some a →
  ∃ c', sc_insert c (take (S i) (lf x)) = Ok c' ∧ sctx_ok (x :: xs) a c'.
Proof.
  intros (HC & Hind & Ht) Hx Hi. destruct c as [C ind rn]. cbn in *. subst ind. unfold sc_insert.
  rewrite (to_bitset_spec C (co_nodup _ _ HC)). cbn [mbind res_bind]. eexists. split; [done|]. split_and!; [done|done|].
  cbn. assert ((λ w, bool_decide (w ∈ take (S i) (lf x))) <$> C = lbits C x) as ->; [|by apply tally_incr].
  apply list_fmap_ext. intros j w Hj. apply bool_decide_ext. split; [by intros Hw%elem_of_take_inv || (intros Hw; by apply elem_of_take in Hw as (? & ? & _); eapply elem_of_list_lookup_2)|].
  intros [k Hk]%elem_of_list_lookup. apply elem_of_take. exists k. split; [done|].
  destruct (decide (k < S i)) as [|Hge]; [done|]. exfalso.
  assert (before vs a w) as Hb by (eapply (proj2 (lf_lio x Hx)); [exact Hi|exact Hk|lia]).
  destruct (co_le _ _ HC w) as [->|Hb']; [by eapply elem_of_list_lookup_2| |]; by eapply vs_before_asym.
Qed.

Lemma so_for_graph_spec : ∃ m, so_for_graph g = Ok m ∧ oracle_ok (λ a, filter (λ x, a ∈ lf x) (reverse vs)) m.
Proof.
  unfold so_for_graph. destruct so_contexts_spec as (m0 & -> & Hm0). cbn [mbind res_bind].
  apply (fold_res_inv _ (λ v1 m, oracle_ok (λ a, filter (λ x, a ∈ lf x) (reverse v1)) m)); [done|].
  intros v1 x v2 m Hvs IH. assert (vtx L x) as Hx. { apply (vs_vtx L HL). rewrite Hvs. set_solver. }
  rewrite (lf_ok x Hx). cbn [mbind res_bind].
  pose proof (lists_in_order_NoDup _ _ _ (vs_nodup L HL) (lf_lio x Hx)) as Hnd.
  destruct (sort_vertices (lf x)) as (l' & -> & _ & Hlio); [done|intros v; by apply lf_vtx|]. cbn [mbind res_bind].
  assert (l' = lf x) as ->.
  { eapply lists_in_order_unique; [apply (vs_nodup L HL)|exact Hlio|]. eapply lio_ext; [|apply (lf_lio x Hx)]. intros v. symmetry. by apply elem_of_lf. }
  destruct (fold_res_inv (λ m i, anchor ← unwrap (lf x !! (i - 1)); ctx ← unwrap (m !! anchor); ctx ← sc_insert ctx (take i (lf x)); Ok (<[anchor:=ctx]> m))
    (λ is m, oracle_ok (λ a, (if bool_decide (a ∈ take (length is) (lf x)) then [x] else []) ++ filter (λ x, a ∈ lf x) (reverse v1)) m)
    (seq 1 (length (lf x))) m) as (m' & Hm' & Hok).
  - cbn. done.
  - intros is i is' m1 His IH1. assert (i = S (length is)) as ->.
    { assert (seq 1 (length (lf x)) !! length is = Some i) as Hl by (rewrite His; by apply list_lookup_middle).
      apply lookup_seq in Hl as [-> _]. lia. }
    assert (length is < length (lf x)) as Hlt.
    { apply (f_equal length) in His. rewrite seq_length, app_length in His. cbn in His. lia. }
    rewrite Nat.sub_succ, Nat.sub_0_r. apply lookup_lt_is_Some in Hlt as [a Ha]. rewrite Ha. cbn [unwrap mbind res_bind].
    assert (vtx L a) as Hva by (eapply lf_vtx; [exact Hx|by eapply elem_of_list_lookup_2]).
    destruct (IH1 a Hva) as (c & Hc & Hcok). rewrite Hc. cbn [unwrap mbind res_bind].
    rewrite bool_decide_eq_false_2 in Hcok.
    2:{ intros (j & Hj & Hlt)%elem_of_take. assert (j = length is); [by eapply NoDup_lookup|lia]. }
    destruct (sc_insert_spec c _ a x (length is) Hcok Hx Ha) as (c' & -> & Hc'). cbn [mbind res_bind]. eexists. split; [done|].
    intros b Hb. rewrite app_length. cbn [length]. rewrite Nat.add_1_r, (take_S_r _ _ _ Ha).
    destruct (decide (b = a)) as [->|Hne].
    + rewrite lookup_insert. exists c'. split; [done|]. by rewrite bool_decide_eq_true_2 by set_solver.
    + rewrite lookup_insert_ne by done. destruct (IH1 b Hb) as (cb & ? & ?). exists cb. split; [done|].
      erewrite bool_decide_ext; [done|]. set_solver.
  - exists m'. split; [done|]. intros a Ha. destruct (Hok a Ha) as (c & Hc & Hcok). exists c. split; [done|].
    rewrite seq_length, firstn_all in Hcok. rewrite reverse_app. cbn [reverse]. change (reverse [x]) with [x]. cbn [app].
    case_bool_decide; [by rewrite filter_cons_True|by rewrite filter_cons_False].
Qed.

(** ** Queries to a context *)
Section query.
Context (c : sctx) (xs : list N) (a : N) (i : nat) (inner : list N).
Context (Hc : sctx_ok xs a c) (Hxs : ∀ x, x ∈ xs → vtx L x ∧ a ∈ lf x).
Context (Hin : StronglySorted (before vs) inner) (Hi : inner !! i = Some a).

Lemma prefix_le w : w ∈ take (S i) inner → w = a ∨ before vs w a.
Proof.
  intros (j & Hj & Hlt)%elem_of_take. destruct (decide (j = i)) as [->|Hne]; [left; congruence|right].
  rewrite ss_lookup in Hin. apply (Hin j i); [done|done|lia].
Qed.
Lemma prefix_trace x : vtx L x → a ∈ lf x →
  filter (λ w, bool_decide (w ∈ take (S i) inner) && bool_decide (w ∈ lf x) = true) (sc_context c) = filter (λ w, w ∈ lf x) (take (S i) inner).
Proof.
  intros Hx Hax. destruct Hc as (HC & _). eapply lists_in_order_unique; [apply (vs_nodup L HL)|apply lio_filter, (co_lio _ _ HC)|].
  apply lio_ss. split; [|by apply ss_filter, ss_take]. intros w. rewrite elem_of_list_filter, andb_true_iff, !bool_decide_eq_true.
  split; [|tauto]. intros [Hw Hwi]. split_and!; [|done|done]. destruct (prefix_le w Hwi) as [->|Hb]; [by eapply co_anchor|].
  by eapply co_reach.
Qed.
Lemma count_neighbours_spec : ∃ m, sc_count_neighbours c (take (S i) inner) = Ok m ∧
  tally m ((λ x, filter (λ w, w ∈ lf x) (take (S i) inner)) <$> xs).
Proof.
  pose proof prefix_trace as Hpt. destruct Hc as (HC & Hind & Ht). destruct c as [C ind rn]. cbn in *. subst ind. unfold sc_count_neighbours.
  rewrite (to_bitset_spec C (co_nodup _ _ HC)). cbn [mbind res_bind sc_right].
  pose proof (tally_map_iter 50 (bits_and ((λ w, bool_decide (w ∈ take (S i) inner)) <$> C)) rn _ Ht) as Ht2.
  assert (bits_and ((λ w, bool_decide (w ∈ take (S i) inner)) <$> C) <$> (lbits C <$> xs) =
    (λ x, (λ w, bool_decide (w ∈ take (S i) inner) && bool_decide (w ∈ lf x)) <$> C) <$> xs) as Heq.
  { rewrite <- list_fmap_compose. apply list_fmap_ext. intros _ x _. unfold compose, lbits. apply (bits_and_fmap C). }
  rewrite Heq in Ht2.
  set (f1 := λ x w, bool_decide (w ∈ take (S i) inner) && bool_decide (w ∈ lf x)) in *.
  destruct (tally_rename 51 (sc_to_vecset (SCtx C (og_index_map C) rn))
    (λ bs, match sc_to_vecset (SCtx C (og_index_map C) rn) bs with Ok l => l | _ => [] end) _ _ Ht2) as (m' & Hm' & Ht').
  - intros bs (x & -> & Hx)%elem_of_list_fmap. by rewrite (to_vecset_spec C rn).
  - intros bs bs' (x & -> & Hx)%elem_of_list_fmap (x' & -> & Hx')%elem_of_list_fmap. rewrite !(to_vecset_spec C rn). intros Hf.
    apply list_fmap_ext. intros j w Hw. apply eq_true_iff_eq.
    assert (w ∈ C) as HwC by (by eapply elem_of_list_lookup_2).
    change (filter (λ w, f1 x w = true) C = filter (λ w, f1 x' w = true) C) in Hf.
    change (f1 x w = true ↔ f1 x' w = true).
    assert (∀ l l' : list N, l = l' → w ∈ l ↔ w ∈ l') as Hel by (by intros ? ? ->).
    apply Hel in Hf. rewrite !elem_of_list_filter in Hf. tauto.
  - exists m'. split; [exact Hm'|]. eapply tally_perm; [exact Ht'|]. rewrite <- list_fmap_compose.
    erewrite list_fmap_ext; [done|]. intros j x Hx. unfold compose. rewrite (to_vecset_spec C rn). 
    destruct (Hxs x) as [? ?]; [by eapply elem_of_list_lookup_2|]. by apply Hpt.
Qed.
Lemma count_first_spec : sc_count_first c (take (S i) inner) =
  Ok (length (filter (λ x, filter (λ w, w ∈ lf x) (take (S i) inner) = [a]) xs)).
Proof.
  pose proof prefix_trace as Hpt. destruct Hc as (HC & Hind & Ht). destruct c as [C ind rn]. cbn in *. subst ind. unfold sc_count_first.
  rewrite (to_bitset_spec C (co_nodup _ _ HC)). cbn [mbind res_bind sc_right sc_context].
  pose proof (co_last _ _ HC) as Hlast. rewrite last_lookup in Hlast.
  assert (1 ≤ length C) as Hlen. { apply lookup_lt_Some in Hlast. lia. }
  unfold sub_checked. rewrite (proj2 (Nat.leb_le _ _) Hlen). cbn [mbind res_bind]. rewrite <- Nat.sub_1_r in Hlast. rewrite Hlast. cbn [unwrap mbind res_bind].
  rewrite (singleton_spec C (co_nodup _ _ HC)). cbn [mbind res_bind]. f_equal.
  etrans; [refine (@sum_expand _ _ _ (λ bs, bits_and ((λ x, bool_decide (x ∈ take (S i) inner)) <$> C) bs = (λ x, bool_decide (x = a)) <$> C) _ _ 0)|]. cbn [plus].
  rewrite (map_iter_expand 52 rn _ Ht). clear Ht Hc.
  assert (∀ x, x ∈ xs → bits_and ((λ x, bool_decide (x ∈ take (S i) inner)) <$> C) (lbits C x) = (λ x, bool_decide (x = a)) <$> C ↔
    filter (λ w, w ∈ lf x) (take (S i) inner) = [a]) as Heq.
  { intros x Hx. destruct (Hxs x Hx) as [Hvx Hax]. unfold lbits. rewrite (bits_and_fmap C). rewrite <- (Hpt x Hvx Hax). split.
    - intros Hb. 
      assert (filter (λ w, bool_decide (w ∈ take (S i) inner) && bool_decide (w ∈ lf x) = true) C = filter (λ w, bool_decide (w = a) = true) C) as ->.
      { pose proof (to_vecset_spec C rn (λ w, bool_decide (w ∈ take (S i) inner) && bool_decide (w ∈ lf x))) as H1.
        rewrite Hb, (to_vecset_spec C rn) in H1. by injection H1. }
      eapply lists_in_order_unique; [apply (vs_nodup L HL)|apply lio_filter, (co_lio _ _ HC)|]. apply lio_ss. split; [|repeat constructor].
      intros w. rewrite elem_of_list_singleton, bool_decide_eq_true. split; [|tauto]. intros ->. split; [by eapply co_anchor|done].
    - intros Hf. apply list_fmap_ext. intros j w Hw. apply eq_true_iff_eq. apply elem_of_list_lookup_2 in Hw.
      assert (w ∈ filter (λ w, bool_decide (w ∈ take (S i) inner) && bool_decide (w ∈ lf x) = true) C ↔ w ∈ [a]) as He by (by rewrite Hf).
      rewrite elem_of_list_filter, elem_of_list_singleton in He. rewrite bool_decide_eq_true. tauto. }
  clear -Heq. induction xs as [|x xs' IH]; [done|]. cbn [fmap list_fmap]. 
  destruct (decide (filter (λ w, w ∈ lf x) (take (S i) inner) = [a])) as [Hd|Hd].
  - rewrite (filter_cons_True _ x) by done. rewrite filter_cons_True by (apply Heq; set_solver). cbn [length]. f_equal. apply IH. intros y Hy. apply Heq. set_solver.
  - rewrite (filter_cons_False _ x) by done. rewrite filter_cons_False by (rewrite Heq by set_solver; done). apply IH. intros y Hy. apply Heq. set_solver.
Qed.
End query.
End with_iter.
