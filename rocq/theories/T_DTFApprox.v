(** Property theorems C100 and C101: the quality of the dominating sets computed on a DTFGraph, and why an
    augmentation has its arcs. *)
From Verif Require Import Base Spec M_Graph M_Iterators M_EditGraph M_Algorithms M_Operations M_OrdGraph M_DTF
  S_Graph S_DTF P_EditGraph P_EditGraph2 P_Graph P_DTF P_DTF2 P_DTF3 P_DTF4 P_DTF5 P_DTF6 P_DTFApprox P_DTFReason
  T_EditGraph T_Algorithms T_DTF T_DTFExact Examples.

(** Every vertex has at most [w] in-neighbours of weight at most [r]. *)
Definition in_at_most (g : dtfgraph) (r w : nat) : Prop :=
  ∀ v l, NoDup l → (∀ u, u ∈ l → ∃ k, k ≤ r ∧ harc g k u v) → length l ≤ w.

(** [X] is a set of vertices that dominates the graph at distance [r]. *)
Definition dominates (G : graph) (r : nat) (X : gset N) : Prop :=
  (∀ x, x ∈ X → contains G x = true) ∧ ∀ v, contains G v = true → ∃ x, x ∈ X ∧ within (adj G) r x v.

Section with_iter.
Context `{HI : HashIter}.

(** ** C100 *)
(** The result is compared with every set that dominates according to [small_distance] on the augmented graph. *)
Theorem C100_approximation (G : graph) (g g' : dtfgraph) (r w : nat) (D X : gset N) :
  graph_wf G → loopless G → dtf_reach_layer G g → df_domset g r = Ok (D, g') → in_at_most g' r w →
  (∀ x, x ∈ X → contains G x = true) →
  (∀ v, contains G v = true → ∃ x, x ∈ X ∧ (x = v ∨ ∃ d, d ≤ r ∧ df_small_distance g' x v = Ok (Some d))) →
  size D ≤ size X * ((w + 1) * (w + 1 + 4 * r * r)).
Proof.
  intros HG Hl Hr Hok Hw HXv HX. destruct (reach_layer_inv G g HG Hl Hr) as [Hinv0 _].
  destruct (augment_spec G g r 2 HG Hinv0) as (g1 & Hg1 & Hinv & Hd & _). pose proof (domset_ok_augment _ _ _ _ Hok) as Hg1'.
  assert (g1 = g') as -> by congruence. clear Hg1'. unfold df_domset in Hok. rewrite Hg1 in Hok. cbn [mbind res_bind] in Hok.
  apply bind_ok in Hok as (_ & _ & Hok). destruct (df_order_spec G HG g' Hinv) as (order & Ho & Hperm). rewrite Ho in Hok. cbn [mbind res_bind] in Hok.
  apply bind_ok in Hok as (st & Hst & Hok). injection Hok as <-.
  assert (r ≤ df_depth g') as Hrd by lia.
  destruct (dc_loop G HG g' Hinv r _ Hrd order st Hperm Hst) as (Hfd & S0 & Hdc).
  pose proof (in_set_spec G HG g' Hinv r Hrd) as Hin.
  replace (w + 1 + 4 * r * r) with (S (2 * r * (2 * r)) + w) by lia.
  apply (approx_size (hitr g' r) S0 (dd_dom st) X (in_set g' r) (2 * r * (2 * r)) w (dci_sub _ _ _ _ _ Hdc)
    (dci_out _ _ _ _ _ Hdc) (dci_scat _ _ _ _ _ Hdc) (dci_dom _ _ _ _ _ Hdc)).
  - intros z v _ Hz. exact Hz.
  - intros x Hx. assert (vtx G x) as Hxv. { destruct Hx as [Hx|Hx]; [by apply (fi_dom _ _ _ _ Hfd)|by apply HXv]. }
    unfold size, set_size. cbn. apply (Hw x); [apply NoDup_elements|]. intros u Hu%elem_of_elements. apply (Hin x u Hxv) in Hu as (i & Hi & Ha).
    exists (S i). split; [lia|by apply harc_S].
  - intros v Hv. assert (vtx G v) as Hvv by (apply (fi_dom _ _ _ _ Hfd); by apply (dci_sub _ _ _ _ _ Hdc)).
    destruct (HX v Hvv) as (x & Hx & Hcase). destruct Hcase as [->|(d & Hdr & Hsd)]; [exists v, v; auto|].
    destruct (small_distance_raw g' x v (ai_wf G g' Hinv) (ai_disj G g' Hinv)) as (o & Hmin & Hraw); [by apply (ai_vtx G g' Hinv), HXv|by apply (ai_vtx G g' Hinv)|].
    rewrite Hsd in Hraw. destruct o as [d'|]; [|done]. destruct (df_depth g' <? d'); [done|]. injection Hraw as <-.
    destruct Hmin as [Hc _]. destruct Hc as [(i & -> & [Ha|Ha])|(i & j & z & -> & _ & _ & Hzx & Hzv)].
    + exists x, x. split_and!; [done|by left|]. right. apply Hin; [done|]. exists i. split; [lia|done].
    + exists x, v. split_and!; [done| |by left]. right. apply Hin; [by apply HXv|]. exists i. split; [lia|done].
    + exists x, z. split_and!; [done| |]; right; apply Hin; [by apply HXv| |done|]; [exists i|exists j]; (split; [lia|done]).
Qed.

(** If the augmented graph has the exact distances, with every dominating set of the graph. *)
Theorem C100_exact (G : graph) (g g' : dtfgraph) (r w : nat) (D X : gset N) :
  graph_wf G → loopless G → dtf_reach_layer G g → df_domset g r = Ok (D, g') → in_at_most g' r w → sd_exact G g' → dominates G r X →
  size D ≤ size X * ((w + 1) * (w + 1 + 4 * r * r)).
Proof.
  intros HG Hl Hr Hok Hw Hex [HXv HX]. apply (C100_approximation G g g' r w D X HG Hl Hr Hok Hw HXv).
  assert (r ≤ df_depth g') as Hrd.
  { destruct (reach_layer_inv G g HG Hl Hr) as [Hinv0 _]. destruct (augment_spec G g r 2 HG Hinv0) as (g1 & Hg1 & _ & Hd & _).
    pose proof (domset_ok_augment _ _ _ _ Hok). assert (g1 = g') as -> by congruence. lia. }
  intros v Hv. destruct (HX v Hv) as (x & Hx & n & Hn & Hns). exists x. split; [done|]. destruct (decide (x = v)) as [|Hne]; [by left|right].
  destruct (Hex x v (HXv x Hx) Hv Hne) as (o & Ho & Hod). destruct o as [d|].
  - destruct (proj1 (Hod d) eq_refl) as [[_ Hmin] _]. exists d. split; [apply Hmin in Hns; lia|done].
  - exfalso. assert (∀ m, m ≤ df_depth g' → ¬ nsteps (adj G) m x v) as Hno; [|apply (Hno n); [lia|done]].
    clear -Hod. intros m. induction m as [m IH] using lt_wf_ind. intros Hm Hs. assert (None = Some m); [|done]. apply Hod. split; [|done].
    split; [done|]. intros k Hk. destruct (decide (k < m)); [|lia]. exfalso. apply (IH k); [done|lia|done].
Qed.

(** For radius 1 the distances are always exact, and the in-degrees are bounded by the degeneracy of the graph. *)
Lemma weight1_at_most (G : graph) (g : dtfgraph) (k : nat) : graph_wf G → loopless G → dtf_reach_layer G g → k ≤ 129 →
  (∀ H : gset N, H ≠ ∅ → ¬ min_degree G H (S k)) → in_at_most g 1 k.
Proof.
  intros HG Hl Hr Hk Hdeg v l Hnd Hin. destruct l as [|x l]; [cbn; lia|]. destruct (reach_layer_inv G g HG Hl Hr) as [_ (g0 & Hg0 & Ha0)].
  destruct (orient_spec G HG Hl) as (g' & lo & up & order & core & Hg' & Hd & _ & _ & _ & _ & _ & _ & Ha). assert (g' = g0) as -> by congruence.
  assert (∀ u, u ∈ x :: l → adj G u v ∧ before order u v) as Hin'.
  { intros u Hu. destruct (Hin u Hu) as (w & Hw & (i & -> & Hu')%harc_arc). assert (i = 0) as -> by lia. rewrite Ha0, Ha in Hu'. tauto. }
  assert (∃ v, vtx G v) as Hv. { exists x. destruct (Hin' x) as [Hx _]; [left|]. by eapply wf_adj_vtx. }
  destruct (C24_lower_bound G lo up order core HG Hl Hd Hv) as (_ & S0 & HS & Hmin & _).
  assert (up ≤ k) as Hup.
  { destruct (decide (up ≤ k)) as [|Hup]; [done|]. exfalso. apply (Hdeg S0 HS). intros u Hu. destruct (Hmin u Hu) as (? & l' & ? & ? & ?).
    split; [done|]. exists l'. split_and!; [done|lia|done]. }
  destruct (C24_exact_small G lo up order core HG Hl Hd Hv) as (_ & _ & _ & Hleft); [lia|].
  etrans; [|exact Hup]. apply (Hleft v). split; [done|]. intros u Hu. destruct (Hin' u Hu). split; [by apply wf_adj_sym|done].
Qed.

Theorem C100_radius_one (G : graph) (g : dtfgraph) (k : nat) :
  graph_wf G → loopless G → dtf_reach_layer G g → k ≤ 129 → (∀ H : gset N, H ≠ ∅ → ¬ min_degree G H (S k)) →
  ∃ D g', df_domset g 1 = Ok (D, g') ∧ dominates G 1 D ∧ ∀ X, dominates G 1 X → size D ≤ size X * ((k + 1) * (k + 5)).
Proof.
  intros HG Hl Hr Hk Hdeg. destruct (C55_domset_partial G g 1 HG Hl Hr) as (D & g' & Hok & HD & Hdom); [vm_compute; done|].
  exists D, g'. split; [done|]. split; [by split|]. intros X [HXv HX]. assert (dtf_reach_layer G g') as Hr' by (by eapply drl_domset).
  replace ((k + 1) * (k + 5)) with ((k + 1) * (k + 1 + 4 * 1 * 1)) by lia.
  apply (C100_approximation G g g' 1 k D X HG Hl Hr Hok); [by apply (weight1_at_most G)|done|].
  intros v Hv. destruct (HX v Hv) as (x & Hx & n & Hn & Hns). exists x. split; [done|]. destruct (decide (x = v)) as [|Hne]; [by left|right].
  exists 1. split; [done|]. apply (C54_small_values_partial G g' x v HG Hl Hr' (HXv x Hx) Hv).
  destruct n as [|[|n]]; [by inversion Hns|by apply nsteps_once_inv|lia].
Qed.

(** ** C101 *)
(** An arc of weight 1 is an edge.  An arc of larger weight follows from two arcs whose weights add up to its weight:
    it closes a walk of length two, or joins two in-neighbours of a vertex that no arc of smaller weight joins. *)
Theorem C101_reasons (G : graph) (g : dtfgraph) (w : nat) x y : graph_wf G → loopless G → dtf_reach G g → harc g w x y →
  x ≠ y ∧ 1 ≤ w ≤ df_depth g ∧ (w = 1 → adj G x y) ∧
  (1 < w → (∃ a b z, a + b = w ∧ harc g a x z ∧ harc g b z y) ∨
    ((∀ k, k < w → ¬ harc g k x y ∧ ¬ harc g k y x) ∧ ∃ a b z, a + b = w ∧ harc g a x z ∧ harc g b y z)).
Proof.
  intros HG Hl Hr (d & -> & Ha)%harc_arc. destruct (reach_closed G g HG Hl Hr) as (Hinv & Hb & _). pose proof (Hb _ _ _ Ha).
  split; [intros ->; by apply (ai_noloop G g Hinv) in Ha|]. split; [lia|]. split.
  - intros [= ->]. destruct (ai_within G g Hinv 0 x y Ha) as (n & Hn & Hs). destruct n as [|[|n]]; [|by apply nsteps_once_inv|lia].
    inversion Hs; subst. by apply (ai_noloop G g Hinv) in Ha.
  - intros Hw. destruct d as [|d]; [lia|]. destruct (reach_reasoned G g HG Hl Hr d x y Ha) as [(i & j & z & ? & ? & ?)|(Hno & i & j & z & ? & ? & ?)].
    + left. exists (S i), (S j), z. rewrite !harc_S. split_and!; [lia|done|done].
    + right. split; [|exists (S i), (S j), z; rewrite !harc_S; split_and!; [lia|done|done]]. intros k Hk. split; intros (e & -> & He)%harc_arc.
      * pose proof (ai_disj G g Hinv _ _ _ _ Ha He). lia.
      * apply (Hno e); [lia|done].
Qed.
(** Conversely, all walks of length two within the depth are closed, and only one arc joins two vertices in each direction. *)
Theorem C101_closed (G : graph) (g : dtfgraph) : graph_wf G → loopless G → dtf_reach G g →
  (∀ a b x y z, harc g a x y → harc g b y z → x ≠ z → a + b ≤ df_depth g → ∃ w, w ≤ a + b ∧ harc g w x z) ∧
  (∀ a b x y, harc g a x y → harc g b x y → a = b).
Proof.
  intros HG Hl Hr. destruct (reach_closed G g HG Hl Hr) as (Hinv & Hb & Ht). split.
  - intros a b x y z (i & -> & Hi)%harc_arc (j & -> & Hj)%harc_arc Hne Hle. destruct (Ht i j x y z) as (k & Hk & Ha); [lia|done|done|done|].
    exists (S k). split; [lia|by apply harc_S].
  - intros a b x y (i & -> & Hi)%harc_arc (j & -> & Hj)%harc_arc. f_equal. exact (ai_disj G g Hinv _ _ _ _ Hi Hj).
Qed.

(** In a forest the arcs of weight [w] lead exactly from the [w]-th ancestors. *)
Theorem C101_forest (G : graph) (g : dtfgraph) : graph_wf G → loopless G → dtf_reach G g → (∀ H : gset N, H ≠ ∅ → ¬ min_degree G H 2) →
  (∀ x x' y, harc g 1 x y → harc g 1 x' y → x = x') ∧
  ∀ w x y, 1 ≤ w ≤ df_depth g → (harc g w x y ↔ nsteps (harc g 1) w x y).
Proof.
  intros HG Hl Hr Hforest. destruct (reach_closed G g HG Hl Hr) as (Hinv & Hb & Ht). pose proof (reach_reasoned G g HG Hl Hr) as Hre.
  assert (∀ x x' y, harc g 1 x y → harc g 1 x' y → x = x') as Hone.
  { intros x x' y Hx Hx'. destruct (decide (x = x')) as [|Hne]; [done|]. exfalso.
    assert (length [x; x'] ≤ 1) as Hlen; [|cbn in Hlen; lia].
    apply (weight1_at_most G g 1 HG Hl (reach_reach_layer G g Hr) ltac:(lia) Hforest y).
    - apply NoDup_cons. split; [by rewrite elem_of_list_singleton|apply NoDup_singleton].
    - intros u [->|[->|[]%elem_of_nil]%elem_of_cons]%elem_of_cons; eauto. }
  split; [done|]. assert (∀ x x' y, arc g 0 x y → arc g 0 x' y → x = x') as Hone' by (intros x x' y; rewrite <- !harc_S; apply Hone).
  destruct (reach_layer_inv G g HG Hl (reach_reach_layer G g Hr)) as [_ (g0 & Hg0 & Ha0)].
  destruct (orient_spec G HG Hl) as (g' & lo & up & order & core & Hg' & _ & _ & _ & _ & Hnd & _ & _ & Ha). assert (g' = g0) as -> by congruence. clear Hg'.
  assert (∀ u v, arc g 0 u v → before order u v) as Hord. { intros p q Hpq. rewrite Ha0, Ha in Hpq. tauto. }
  pose proof (arcs_desc g Hone' order (ai_disj G g Hinv) (ai_noloop G g Hinv) Hb Ht Hre Hnd Hord) as Hdesc.
  assert (∀ a, ¬ before order a a) as Hirr.
  { intros a (i & j & Hi & Hj & ?). assert (i = j) by (eapply NoDup_lookup; [exact Hnd|exact Hi|exact Hj]). lia. }
  intros w x y [Hw Hwd]. destruct w as [|i]; [lia|]. rewrite harc_S. split.
  - intros Hxy%Hdesc. clear -Hxy. revert x Hxy. generalize (S i) as k. induction k as [|k IH]; intros x; cbn.
    + intros ->. constructor.
    + intros (z & Hxz & Hzy). econstructor; [by apply harc_S|eauto].
  - intros Hs%nsteps_desc. destruct (desc_arc g order i x y Ht Hnd Hord Hs Hwd) as (_ & j & Hj & Hxy).
    destruct (decide (j = i)) as [->|Hne]; [done|]. exfalso. pose proof (Hdesc _ _ _ Hxy) as Hd.
    pose proof (desc_compare g Hone' (S j) (S i) x x y ltac:(lia) Hd Hs) as Hxx. replace (S i - S j) with (S (i - j - 1)) in Hxx by lia.
    apply (Hirr x). eapply desc_arc; [exact Ht|exact Hnd|exact Hord|exact Hxx|lia].
Qed.

(** Hence on forests the dominating sets are within a factor that depends on the radius only. *)
Theorem C100_forest (G : graph) (g : dtfgraph) (r : nat) : graph_wf G → loopless G → dtf_reach G g →
  (N.of_nat (2 * r) * N.of_nat (2 * r) < u32_mod)%N → (∀ H : gset N, H ≠ ∅ → ¬ min_degree G H 2) →
  ∃ D g', df_domset g r = Ok (D, g') ∧ dominates G r D ∧ ∀ X, dominates G r X → size D ≤ size X * ((r + 1) * (r + 1 + 4 * r * r)).
Proof.
  intros HG Hl Hr Hrad Hforest. pose proof (reach_reach_layer G g Hr) as Hrl.
  destruct (C55_domset_partial G g r HG Hl Hrl Hrad) as (D & g' & Hok & HD & Hdom).
  exists D, g'. split; [done|]. split; [by split|]. intros X HX. assert (dtf_reach G g') as Hr' by (by eapply dr_domset).
  apply (C100_exact G g g' r r D X HG Hl Hrl Hok); [|by apply C54_forest|done].
  destruct (C101_forest G g' HG Hl Hr' Hforest) as [Hone Harc]. destruct (reach_closed G g' HG Hl Hr') as (_ & Hb & _).
  intros v l Hnd Hin. assert (∀ n x x', nsteps (harc g' 1) n x v → nsteps (harc g' 1) n x' v → x = x') as Hinj.
  { intros n x x' Hx%nsteps_desc Hx'%nsteps_desc. apply (desc_inj g' (λ a b c H1 H2, Hone a b c (proj2 (harc_S _ _ _ _) H1) (proj2 (harc_S _ _ _ _) H2)) n x x' v Hx Hx'). }
  assert (∀ u, u ∈ l → ∃ k, k ∈ seq 1 r ∧ nsteps (harc g' 1) k u v) as Hin'.
  { intros u Hu. destruct (Hin u Hu) as (k & Hk & Ha). pose proof Ha as (i & -> & Hi)%harc_arc. exists (S i). split; [apply elem_of_seq; lia|].
    apply Harc; [|done]. apply Hb in Hi. lia. }
  rewrite <- (seq_length r 1). clear -Hnd Hin' Hinj. revert Hin'. generalize (seq 1 r) as ks. induction l as [|u l IH]; intros ks Hks; [cbn; lia|].
  apply NoDup_cons in Hnd as [Hul Hnd]. destruct (Hks u) as (k & Hk & Hu); [left|].
  apply elem_of_Permutation in Hk as (ks' & Hp). rewrite Hp. cbn [length]. apply le_n_S, IH; [done|]. intros u' Hu'.
  destruct (Hks u') as (k' & Hk' & Hs); [by right|]. exists k'. split; [|done]. rewrite Hp in Hk'. apply elem_of_cons in Hk' as [->|?]; [|done].
  destruct Hul. by rewrite (Hinj k u u').
Qed.
End with_iter.

(** ** Concrete cases *)
#[local] Existing Instance std_iter.

(** Computable forms of the hypotheses. *)
Definition in_check (g : dtfgraph) (r w : nat) : bool :=
  forallb (λ p : N * dtf_node, size (⋃ (take r (dn_in p.2)) : gset N) <=? w) (map_to_list (df_nodes g)).
Lemma in_check_ok g r w : in_check g r w = true → in_at_most g r w.
Proof.
  unfold in_check. rewrite forallb_forall. intros Hall v l Hnd Hin. destruct l as [|x l]; [cbn; lia|].
  destruct (Hin x) as (k & _ & (i & -> & n & X & Hn & _)%harc_arc); [left|].
  specialize (Hall (v, n)). cbn [snd] in Hall. assert (In (v, n) (map_to_list (df_nodes g))) as Hvn by (by apply elem_of_list_In, elem_of_map_to_list).
  apply Hall, Nat.leb_le in Hvn. etrans; [|exact Hvn]. rewrite <- (size_list_to_set (C := gset N) (x :: l) Hnd). apply subseteq_size.
  intros u Hu%elem_of_list_to_set. destruct (Hin u Hu) as (k & Hk & (j & -> & n' & Y & Hn' & HY & HuY)%harc_arc).
  assert (n' = n) as -> by congruence. apply elem_of_union_list. exists Y. split; [|done]. apply elem_of_list_lookup. exists j.
  rewrite lookup_take by lia. done.
Qed.

Example ex_C100_exact : dtf_reach (eg_graph (ex_edit ex_cycle6)) (ex_dtf_run ex_cycle6 3 1) ∧ sd_exact (eg_graph (ex_edit ex_cycle6)) (ex_dtf_run ex_cycle6 3 1) ∧
  in_at_most (ex_dtf_run ex_cycle6 3 1) 3 5 ∧
  (r ← df_domset (ex_dtf_run ex_cycle6 3 1) 2; Ok (elements r.1)) = Ok [0; 3]%N.
Proof.
  destruct ex_C54_closed as (Hr & _ & Hex & _). split; [exact Hr|]. split; [exact Hex|]. split; [|vm_compute; reflexivity].
  apply in_check_ok. vm_compute. reflexivity.
Qed.
(** The bound for the triangles: in-degrees at most 2. *)
Example ex_C100_radius_one : dtf_reach_layer (eg_graph (ex_edit ex_triangles)) (ex_dtf_run ex_triangles 1 0) ∧
  in_at_most (ex_dtf_run ex_triangles 1 0) 1 2 ∧ (r ← df_domset (ex_dtf_run ex_triangles 1 0) 1; Ok (elements r.1)) = Ok [0; 3]%N.
Proof.
  destruct (ex_dtf_ok ex_triangles 1 0) as (_ & _ & Hr); [done|]. split; [by apply reach_reach_layer|]. split; [|vm_compute; reflexivity].
  apply in_check_ok. vm_compute. reflexivity.
Qed.
(** A forest (so the hypothesis of [C100_radius_one] holds with [k = 1]), its sets for the radii 1 to 3, and some of the arcs of its augmentation. *)
Example ex_C100_forest : (∀ H : gset N, H ≠ ∅ → ¬ min_degree (eg_graph (ex_edit ex_tree)) H 2) ∧
  map (λ k, r ← df_domset (ex_dtf_run ex_tree 1 0) k; Ok (elements r.1)) [1; 2; 3] = [Ok [1; 3; 5]; Ok [3; 4]; Ok [1]]%N.
Proof. destruct ex_C54_forest as (_ & Hf & _). split; [exact Hf|]. vm_compute. reflexivity. Qed.
Example ex_C101_forest : harcb (ex_dtf_run ex_tree 4 2) 4 6 0 = true ∧ harcb (ex_dtf_run ex_tree 4 2) 4 5 3 = true ∧
  forallb (λ p, harcb (ex_dtf_run ex_tree 4 2) 1 p.1 p.2) [(6, 5); (5, 4); (4, 1); (1, 0); (1, 2); (2, 3)]%N = true.
Proof. vm_compute. split_and!; reflexivity. Qed.
(** In the cycle, a transitive arc and a fraternal arc. *)
Example ex_C101_reasons : dtf_reach (eg_graph (ex_edit ex_cycle6)) (ex_dtf_run ex_cycle6 3 1) ∧
  forallb (λ p, harcb (ex_dtf_run ex_cycle6 3 1) p.1.1 p.1.2 p.2)
    [(2, 2%N, 0%N); (1, 2%N, 1%N); (1, 1%N, 0%N); (2, 1%N, 5%N); (1, 5%N, 0%N)] = true ∧
  harcb (ex_dtf_run ex_cycle6 3 1) 1 1 5 = false ∧ harcb (ex_dtf_run ex_cycle6 3 1) 1 5 1 = false.
Proof. destruct ex_C54_closed as (Hr & _). split; [exact Hr|]. vm_compute. split_and!; reflexivity. Qed.

Print Assumptions C100_approximation.
Print Assumptions C100_exact.
Print Assumptions C100_radius_one.
Print Assumptions C101_reasons.
Print Assumptions C101_closed.
Print Assumptions C101_forest.
Print Assumptions C100_forest.
