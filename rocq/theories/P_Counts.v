(** Proof file for C105: counting edges through degrees (no code is modelled here). *)
From Verif Require Import Base Spec M_Graph M_Iterators M_EditGraph M_Algorithms M_Operations S_Graph P_EditGraph P_Degeneracy.

Lemma same_length {A} (l1 l2 : list A) : NoDup l1 → NoDup l2 → (∀ x, x ∈ l1 ↔ x ∈ l2) → length l1 = length l2.
Proof. intros H1 H2 H. by apply Permutation_length, NoDup_Permutation. Qed.
Lemma sum_perm {A} (f : A → nat) l1 l2 : l1 ≡ₚ l2 → sum_list_with f l1 = sum_list_with f l2.
Proof. induction 1; cbn; lia. Qed.
Lemma sum_ext {A} (f g : A → nat) l : (∀ x, x ∈ l → f x = g x) → sum_list_with f l = sum_list_with g l.
Proof. induction l as [|x l IH]; intros H; [done|]. cbn. rewrite (H x), IH; [done| |]; set_solver. Qed.
Lemma sum_plus {A} (f g : A → nat) l : sum_list_with (λ x, f x + g x) l = sum_list_with f l + sum_list_with g l.
Proof. induction l as [|x l IH]; [done|]. cbn. lia. Qed.
Lemma sum_const {A} k (l : list A) : sum_list_with (λ _, k) l = length l * k.
Proof. induction l as [|x l IH]; [done|]. cbn. lia. Qed.
Lemma sum_mult {A} (f : A → nat) k l : sum_list_with (λ x, k * f x) l = k * sum_list_with f l.
Proof. induction l as [|x l IH]; cbn; lia. Qed.
Lemma sum_zero {A} (f : A → nat) l : (∀ x, x ∈ l → f x = 0) → sum_list_with f l = 0.
Proof. intros H. rewrite (sum_ext f (λ _, 0)) by done. rewrite sum_const. lia. Qed.
Lemma sum_fmap {A B} (f : B → nat) (k : A → B) l : sum_list_with f (k <$> l) = sum_list_with (λ x, f (k x)) l.
Proof. induction l as [|x l IH]; [done|]. cbn. lia. Qed.
Lemma filter_split {A} (P : A → Prop) `{∀ x, Decision (P x)} l : l ≡ₚ filter P l ++ filter (λ x, ¬ P x) l.
Proof.
  induction l as [|x l IH]; [done|]. rewrite !filter_cons. destruct (decide (P x)) as [Hp|Hp].
  - rewrite decide_False by tauto. cbn. by f_equiv.
  - rewrite decide_True by done. rewrite <- Permutation_middle. by f_equiv.
Qed.

(** The pairs of a member of [l] and a member of its list. *)
Definition tag {A B} (l : list A) (k : A → list B) : list (A * B) := concat ((λ u, (u,.) <$> k u) <$> l).
Lemma elem_of_tag {A B} (l : list A) (k : A → list B) u v : (u, v) ∈ tag l k ↔ u ∈ l ∧ v ∈ k u.
Proof.
  unfold tag. induction l as [|a l IH]; cbn; [set_solver|]. rewrite elem_of_app, IH, elem_of_cons, elem_of_list_fmap. split.
  - intros [(w & Hw & ?)|[? ?]]; [|tauto]. injection Hw as -> ->. tauto.
  - intros [[->|?] ?]; [|tauto]. left. by exists v.
Qed.
Lemma tag_nodup {A B} (l : list A) (k : A → list B) : NoDup l → (∀ u, u ∈ l → NoDup (k u)) → NoDup (tag l k).
Proof.
  induction l as [|a l IH]; intros Hl Hk; [constructor|]. apply NoDup_cons in Hl as [Ha Hl]. unfold tag. cbn.
  apply NoDup_app. split_and!.
  - apply NoDup_fmap_2; [intros ? ?; congruence|]. apply Hk. set_solver.
  - intros [u v] (w & Hw & ?)%elem_of_list_fmap Hin. injection Hw as -> ->. apply (elem_of_tag l k) in Hin as [? _]. done.
  - apply IH; [done|]. set_solver.
Qed.
Lemma tag_length {A B} (l : list A) (k : A → list B) : length (tag l k) = sum_list_with (λ u, length (k u)) l.
Proof. unfold tag. induction l as [|a l IH]; [done|]. cbn. rewrite app_length, fmap_length, IH. done. Qed.
Lemma sum_tag {A B} (f : A * B → nat) (l : list A) (k : A → list B) :
  sum_list_with f (tag l k) = sum_list_with (λ u, sum_list_with (λ v, f (u, v)) (k u)) l.
Proof. unfold tag. induction l as [|a l IH]; [done|]. cbn. rewrite sum_list_with_app, sum_fmap, IH. done. Qed.

Lemma degree_nbrs G v : graph_wf G → vtx G v → degree G v = length (nbrs G v) + (if adjacent G v v then 1 else 0).
Proof. intros Hwf Hv. destruct (wf_neighbours _ Hwf v Hv) as (l & Hl & _ & _ & Hd). unfold nbrs. by rewrite Hl. Qed.
Lemma degree_zero G v : graph_wf G → vtx G v → degree G v = 0 ↔ ¬ ∃ w, adj G v w.
Proof.
  intros Hwf Hv. destruct (nbrs_spec G v Hwf Hv) as (_ & _ & Hn & Hd). split.
  - intros H0 [w Hw]. rewrite (degree_nbrs G v Hwf Hv) in H0. apply Hn in Hw. destruct (nbrs G v); [set_solver|cbn in H0; lia].
  - intros Hno. rewrite Hd by (intros Hl; apply Hno; by exists v). destruct (nbrs G v) as [|w l]; [done|]. exfalso. apply Hno. exists w. apply Hn. set_solver.
Qed.
Lemma degree_is G v l : graph_wf G → vtx G v → ¬ adj G v v → NoDup l → (∀ u, u ∈ l ↔ adj G v u) → degree G v = length l.
Proof.
  intros Hwf Hv Hl Hnd Hin. destruct (nbrs_spec G v Hwf Hv) as (_ & Hnd' & Hn & Hd). rewrite (Hd Hl).
  apply same_length; [done..|]. intros x. by rewrite Hn, Hin.
Qed.

(** Every edge is counted at both ends, a loop twice at its only end. *)
Lemma handshake G : graph_wf G → sum_list_with (degree G) (vertices G) = 2 * num_edges G.
Proof.
  intros Hwf. destruct (wf_num_edges _ Hwf) as (E & HE & ->).
  set (P := tag (vertices G) (nbrs G)). set (loop := λ e : N * N, e.1 = e.2).
  assert (∀ u v, (u, v) ∈ P ↔ adj G u v) as HP.
  { intros u v. unfold P. rewrite elem_of_tag, (wf_vertices _ Hwf). split.
    - intros [Hu Hv]. by apply (nbrs_spec G u Hwf Hu).
    - intros Ha. pose proof (wf_adj_vtx _ Hwf _ _ Ha) as Hu. split; [done|]. by apply (nbrs_spec G u Hwf Hu). }
  assert (NoDup P) as HPn.
  { apply tag_nodup; [apply Hwf|]. intros u Hu%(wf_vertices _ Hwf). apply (nbrs_spec G u Hwf Hu). }
  assert (sum_list_with (degree G) (vertices G) = length P + length (filter (λ u, adj G u u) (vertices G))) as ->.
  { unfold P. rewrite tag_length. clear -Hwf. pose proof (λ u, proj1 (wf_vertices _ Hwf u)) as HV. induction (vertices G) as [|u l IH]; [done|].
    cbn [sum_list_with]. rewrite IH by set_solver. rewrite (degree_nbrs G u Hwf) by (apply HV; set_solver). rewrite filter_cons.
    destruct (decide (adj G u u)) as [Hu|Hu]; unfold adj in Hu; [rewrite Hu|rewrite (not_true_is_false _ Hu)]; cbn [length]; lia. }
  assert (length P = length (elements E ++ ((λ e, (e.2, e.1)) <$> filter (λ e, ¬ loop e) (elements E)))) as ->.
  { apply same_length; [done| |].
    - apply NoDup_app. split_and!; [apply NoDup_elements| |].
      + intros [u v] Hin ([a b] & Hab & [Hlp Hin2]%elem_of_list_filter)%elem_of_list_fmap. cbn in Hab. injection Hab as -> ->.
        apply elem_of_elements, HE in Hin as [? _]. apply elem_of_elements, HE in Hin2 as [? _]. apply Hlp. unfold loop. cbn. lia.
      + apply NoDup_fmap_2; [intros [] []; cbn; congruence|]. apply NoDup_filter, NoDup_elements.
    - intros [u v]. rewrite HP, elem_of_app, elem_of_elements, HE, elem_of_list_fmap. split.
      + intros Ha. destruct (decide (u <= v)%N); [by left|]. right. exists (v, u). split; [done|]. apply elem_of_list_filter.
        split; [unfold loop; cbn; lia|]. apply elem_of_elements, HE. split; [lia|]. by apply (wf_adj_sym _ Hwf).
      + intros [[_ ?]|([a b] & Hab & [_ Hin]%elem_of_list_filter)]; [done|]. cbn in Hab. injection Hab as -> ->.
        apply elem_of_elements, HE in Hin as [_ ?]. by apply (wf_adj_sym _ Hwf). }
  assert (length (filter (λ u, adj G u u) (vertices G)) = length (filter loop (elements E))) as ->.
  { rewrite <- (fmap_length (λ u, (u, u))). apply same_length.
    - apply NoDup_fmap_2; [intros ? ?; congruence|]. apply NoDup_filter, Hwf.
    - apply NoDup_filter, NoDup_elements.
    - intros [u v]. rewrite elem_of_list_fmap, elem_of_list_filter, elem_of_elements, HE. unfold loop. cbn. split.
      + intros (w & Hw & [Hl _]%elem_of_list_filter). injection Hw as -> ->. split_and!; [done|lia|done].
      + intros (-> & _ & Hl). exists v. split; [done|]. apply elem_of_list_filter. split; [done|]. apply (wf_vertices _ Hwf). by eapply (wf_adj_vtx _ Hwf). }
  pose proof (Permutation_length (filter_split loop (elements E))) as Hs. rewrite app_length in Hs |- *. rewrite fmap_length.
  change (size E) with (length (elements E)). lia.
Qed.

(** ** Graphs on pairs: [inv] names the pair of each vertex *)
Section prod.
Context (h : graph) (inv : gmap N (N * N)).
Hypothesis Hwf : graph_wf h.
Hypothesis Hinj : ∀ x y p, inv !! x = Some p → inv !! y = Some p → x = y.

Definition named (x : N) : N * N := default (0, 0)%N (inv !! x).
Lemma named_nodup l : NoDup l → (∀ x, x ∈ l → is_Some (inv !! x)) → NoDup (named <$> l).
Proof.
  induction 1 as [|x l Hx Hl IH]; intros Hs; [constructor|]. cbn. apply NoDup_cons. split.
  - intros (y & Hy & Hin)%elem_of_list_fmap. destruct (Hs x) as [p Hp]; [set_solver|]. destruct (Hs y) as [q Hq]; [set_solver|].
    unfold named in Hy. rewrite Hp, Hq in Hy. cbn in Hy. subst q. by rewrite (Hinj x y p Hp Hq) in Hx.
  - apply IH. set_solver.
Qed.
Lemma prod_degree x (l : list (N * N)) : vtx h x → ¬ adj h x x → NoDup l →
  (∀ y, adj h x y → ∃ q, inv !! y = Some q ∧ q ∈ l) → (∀ q, q ∈ l → ∃ y, inv !! y = Some q ∧ adj h x y) → degree h x = length l.
Proof.
  intros Hx Hl Hnd H1 H2. destruct (nbrs_spec h x Hwf Hx) as (_ & Hnd' & Hn & Hd). rewrite (Hd Hl), <- (fmap_length named). apply same_length; [|done|].
  - apply named_nodup; [done|]. intros y (q & ? & _)%Hn%H1. by exists q.
  - intros q. rewrite elem_of_list_fmap. split.
    + intros (y & -> & (q2 & Hq & ?)%Hn%H1). unfold named. by rewrite Hq.
    + intros (y & Hy & Ha)%H2. exists y. split; [unfold named; by rewrite Hy|by apply Hn].
Qed.
Lemma prod_perm (L : list (N * N)) : NoDup L → (∀ x, vtx h x → ∃ p, inv !! x = Some p ∧ p ∈ L) →
  L ≡ₚ (named <$> vertices h) ++ filter (λ p, p ∉ named <$> vertices h) L.
Proof.
  intros HL H1. etrans; [apply (filter_split (λ p, p ∈ named <$> vertices h))|]. apply Permutation_app; [|done].
  apply NoDup_Permutation; [by apply NoDup_filter|apply named_nodup; [apply Hwf|]|].
  - intros x (p & ? & _)%(wf_vertices _ Hwf)%H1. by exists p.
  - intros p. rewrite elem_of_list_filter. split; [tauto|]. intros Hp. split; [done|].
    apply elem_of_list_fmap in Hp as (x & -> & (p2 & Hp & ?)%(wf_vertices _ Hwf)%H1). unfold named. by rewrite Hp.
Qed.
Lemma prod_sum (L : list (N * N)) (f : N * N → nat) : NoDup L →
  (∀ x, vtx h x → ∃ p, inv !! x = Some p ∧ p ∈ L ∧ degree h x = f p) →
  (∀ p, p ∈ L → (∃ x, inv !! x = Some p ∧ vtx h x) ∨ f p = 0) → 2 * num_edges h = sum_list_with f L.
Proof.
  intros HL H1 H2. rewrite <- (handshake h Hwf), (sum_perm f _ _ (prod_perm L HL (λ x Hx, let '(ex_intro _ p (conj a (conj b _))) := H1 x Hx in ex_intro _ p (conj a b)))).
  rewrite sum_list_with_app, (sum_zero f (filter _ _)), Nat.add_0_r.
  - rewrite sum_fmap. apply sum_ext. intros x (p & Hp & _ & ->)%(wf_vertices _ Hwf)%H1. unfold named. by rewrite Hp.
  - intros p [Hn [(x & Hx & Hv)|?]%H2]%elem_of_list_filter; [|done]. exfalso. apply Hn, elem_of_list_fmap. exists x.
    split; [unfold named; by rewrite Hx|by apply (wf_vertices _ Hwf)].
Qed.
Lemma prod_size (L Z : list (N * N)) : NoDup L → NoDup Z → (∀ x, vtx h x → ∃ p, inv !! x = Some p ∧ p ∈ L ∧ p ∉ Z) →
  (∀ p, p ∈ Z → p ∈ L) → (∀ p, p ∈ L → p ∉ Z → ∃ x, inv !! x = Some p ∧ vtx h x) → num_vertices h + length Z = length L.
Proof.
  intros HL HZ H1 H2 H3.
  rewrite (Permutation_length (prod_perm L HL (λ x Hx, let '(ex_intro _ p (conj a (conj b _))) := H1 x Hx in ex_intro _ p (conj a b)))).
  rewrite app_length, fmap_length, (wf_num_vertices _ Hwf). f_equal. apply same_length; [done|by apply NoDup_filter|].
  intros p. rewrite elem_of_list_filter, elem_of_list_fmap. split.
  - intros Hp. split; [|by apply H2]. intros (x & -> & (p2 & Hx & _ & Hn)%(wf_vertices _ Hwf)%H1). apply Hn. unfold named in Hp. by rewrite Hx in Hp.
  - intros [Hn Hp]. destruct (decide (p ∈ Z)) as [?|Hz]; [done|]. exfalso. destruct (H3 p Hp Hz) as (x & Hx & Hv). apply Hn. exists x.
    split; [unfold named; by rewrite Hx|by apply (wf_vertices _ Hwf)].
Qed.
End prod.
