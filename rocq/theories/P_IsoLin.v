(** Renaming the vertices of a linear graph: what the algorithms compute is renamed accordingly. *)
From Verif Require Import Base Spec M_Graph M_Iterators M_EditGraph M_Operations M_OrdGraph M_Linear M_Domset
  S_Graph S_Linear S_Reach P_Graph P_Bipartite P_OrdGraph P_OrdGraph2 P_DegenGraph P_DegenGraph2 P_Linear P_Linear2 P_Wdist P_Domset P_Determin.

(** [f] renames the vertices of [L1], and [L2] is the result, in the corresponding order. *)
Definition lrenames (f : N → N) (L1 L2 : lgraph) : Prop :=
  vertices L2 = f <$> vertices L1 ∧
  ∀ u v, contains L1 u = true → contains L1 v = true → adjacent L1 u v = adjacent L2 (f u) (f v).

Definition rmap {A B} (g : A → B) (r : res A) : res B :=
  match r with Ok a => Ok (g a) | Panic => Panic | Diverge => Diverge end.

Lemma rmap_bind {A B C} (g : A → B) (r : res C) (k : C → res A) : rmap g (c ← r; k c) = (c ← r; rmap g (k c)).
Proof. by destruct r. Qed.
Lemma bind_rmap {A B C} (g : A → B) (r : res A) (k : B → res C) : (b ← rmap g r; k b) = (a ← r; k (g a)).
Proof. by destruct r. Qed.

(** A fold over renamed elements. *)
Lemma fold_res_rename {A B S T} (a : A → B) (b : S → T) (g1 : S → A → res S) (g2 : T → B → res T) (l : list A) :
  (∀ s x, x ∈ l → g2 (b s) (a x) = rmap b (g1 s x)) → ∀ s, fold_res g2 (a <$> l) (b s) = rmap b (fold_res g1 l s).
Proof.
  induction l as [|x l IH]; intros Hg s; [done|]. cbn [fmap list_fmap fold_res]. rewrite Hg by left.
  rewrite bind_rmap, rmap_bind. destruct (g1 s x) as [s'| |]; cbn [mbind res_bind]; [|done..].
  apply IH. intros s'' y Hy. apply Hg. by right.
Qed.

Lemma list_filter_map {A B} (g : A → B) (P : B → Prop) (Q : A → Prop) `{!∀ x, Decision (P x)} `{!∀ x, Decision (Q x)} (l : list A) :
  (∀ x, P (g x) ↔ Q x) → filter P (g <$> l) = g <$> filter Q l.
Proof.
  intros HPQ. induction l as [|x l IH]; [done|]. cbn [fmap list_fmap]. rewrite !filter_cons. specialize (HPQ x).
  destruct (decide (P (g x))), (decide (Q x)); [|tauto|tauto|done]. cbn [fmap list_fmap]. by rewrite <- IH.
Qed.

(** ** Sorting commutes with renaming *)
Section sort.
Context (f : N → N).
Definition fkey (p : nat * N) : nat * N := (p.1, f p.2).
Lemma list_merge_fkey l1 l2 : list_merge key_ge (fkey <$> l1) (fkey <$> l2) = fkey <$> list_merge key_ge l1 l2.
Proof.
  revert l2. induction l1 as [|x l1 IH1]; intros l2; [by destruct l2|].
  induction l2 as [|y l2 IH2]; [done|]. cbn [fmap list_fmap]. rewrite !list_merge_cons.
  assert (key_ge (fkey x) (fkey y) ↔ key_ge x y) as Hk by done.
  destruct (decide (key_ge x y)) as [Hxy|Hxy].
  - rewrite decide_True by done. cbn. f_equal. apply (IH1 (y :: l2)).
  - rewrite decide_False by done. cbn. f_equal. apply IH2.
Qed.
Definition fstack (st : list (option (list (nat * N)))) : list (option (list (nat * N))) := map (option_map (map fkey)) st.
Lemma merge_list_to_stack_fkey st l : merge_list_to_stack key_ge (fstack st) (fkey <$> l) = fstack (merge_list_to_stack key_ge st l).
Proof.
  revert l. induction st as [|[l'|] st IH]; intros l; [done| |done]. cbn. f_equal. rewrite list_merge_fkey. apply IH.
Qed.
Lemma merge_stack_fkey st : merge_stack key_ge (fstack st) = fkey <$> merge_stack key_ge st.
Proof. induction st as [|[l|] st IH]; [done| |done]. cbn. fold (fstack st). by rewrite IH, list_merge_fkey. Qed.
Lemma merge_sort_aux_fkey st l : merge_sort_aux key_ge (fstack st) (fkey <$> l) = fkey <$> merge_sort_aux key_ge st l.
Proof.
  revert st. induction l as [|x l IH]; intros st; [apply merge_stack_fkey|]. cbn.
  rewrite <- IH. f_equal. apply (merge_list_to_stack_fkey st [x]).
Qed.
Lemma merge_sort_fkey l : merge_sort key_ge (fkey <$> l) = fkey <$> merge_sort key_ge l.
Proof. apply (merge_sort_aux_fkey []). Qed.
End sort.

Section rename.
Context (f : N → N) `{Hf : !Inj (=) (=) f}.

Definition im (X : gset N) : gset N := set_map f X.
Definition km {A} (m : gmap N A) : gmap N A := kmap f m.
Definition fp {A} (p : N * A) : N * A := (f p.1, p.2).
Definition km2 {A} (W : gmap N (gmap N A)) : gmap N (gmap N A) := km (km <$> W).

Lemma elem_im x X : f x ∈ im X ↔ x ∈ X.
Proof. unfold im. rewrite elem_of_map. split; [by intros (y & ->%(inj f) & ?)|eauto]. Qed.
Lemma im_out y X : y ∈ im X → ∃ x, y = f x ∧ x ∈ X.
Proof. unfold im. rewrite elem_of_map. eauto. Qed.
Lemma bd_im x X : bool_decide (f x ∈ im X) = bool_decide (x ∈ X).
Proof. apply bool_decide_ext, elem_im. Qed.
Lemma im_insert x X : im ({[x]} ∪ X) = {[f x]} ∪ im X.
Proof. unfold im. by rewrite set_map_union_L, set_map_singleton_L. Qed.
Lemma im_singleton x : im {[x]} = {[f x]}.
Proof. apply set_map_singleton_L. Qed.
Lemma im_empty : im ∅ = ∅.
Proof. apply set_map_empty. Qed.
Lemma im_empty_iff X : im X = ∅ ↔ X = ∅.
Proof.
  split; [|intros ->; apply im_empty]. intros He. apply set_eq. intros x. rewrite <- (elem_im x X), He. set_solver.
Qed.
Global Instance im_inj : Inj (=) (=) im.
Proof. intros X Y HXY. apply set_eq. intros x. by rewrite <- (elem_im x X), <- (elem_im x Y), HXY. Qed.
Lemma im_eq X Y : (∀ x, f x ∈ X ↔ x ∈ Y) → (∀ y, y ∈ X → ∃ x, y = f x) → X = im Y.
Proof.
  intros Hxy Ho. apply set_eq. intros y. split.
  - intros Hy. destruct (Ho y Hy) as [x ->]. by apply elem_im, Hxy.
  - intros (x & -> & Hx)%im_out. by apply Hxy.
Qed.
Lemma im_difference X Y : im (X ∖ Y) = im X ∖ im Y.
Proof.
  symmetry. apply im_eq.
  - intros x. by rewrite !elem_of_difference, !elem_im.
  - intros y [Hy _]%elem_of_difference. apply im_out in Hy as (x & ? & _). eauto.
Qed.
Lemma im_intersection X Y : im (X ∩ Y) = im X ∩ im Y.
Proof.
  symmetry. apply im_eq.
  - intros x. by rewrite !elem_of_intersection, !elem_im.
  - intros y [Hy _]%elem_of_intersection. apply im_out in Hy as (x & ? & _). eauto.
Qed.
Lemma im_list (l : list N) : im (list_to_set l) = list_to_set (f <$> l).
Proof.
  symmetry. apply im_eq.
  - intros x. by rewrite !elem_of_list_to_set, (elem_of_list_fmap_inj f).
  - intros y (x & -> & _)%elem_of_list_to_set%elem_of_list_fmap. eauto.
Qed.
Lemma size_im X : size (im X) = size X.
Proof.
  unfold im. unfold size, set_size. cbn. rewrite <- (fmap_length f (elements X)). apply Permutation_length, NoDup_Permutation.
  - apply NoDup_elements.
  - apply NoDup_fmap_2; [done|apply NoDup_elements].
  - intros y. rewrite elem_of_elements, elem_of_list_fmap, elem_of_map. by setoid_rewrite elem_of_elements.
Qed.

Lemma lookup_km {A} (m : gmap N A) x : km m !! f x = m !! x.
Proof. unfold km. by rewrite (lookup_kmap f). Qed.
Lemma lookup_km_Some {A} (m : gmap N A) y a : km m !! y = Some a ↔ ∃ x, y = f x ∧ m !! x = Some a.
Proof. unfold km. by rewrite (lookup_kmap_Some f). Qed.
Lemma lookup_km2 {A} (W : gmap N (gmap N A)) x : km2 W !! f x = km <$> W !! x.
Proof. unfold km2. by rewrite lookup_km, lookup_fmap. Qed.
Lemma km_insert {A} (m : gmap N A) x a : km (<[x := a]> m) = <[f x := a]> (km m).
Proof. unfold km. by rewrite (kmap_insert f). Qed.
Lemma km_empty {A} : km (∅ : gmap N A) = ∅.
Proof. apply kmap_empty. Qed.
Lemma km2_empty {A} : km2 (∅ : gmap N (gmap N A)) = ∅.
Proof. unfold km2. by rewrite fmap_empty, km_empty. Qed.
Lemma km_eq {A} (m2 m1 : gmap N A) : (∀ x, m2 !! f x = m1 !! x) → (∀ y a, m2 !! y = Some a → ∃ x, y = f x) → m2 = km m1.
Proof.
  intros Hx Ho. apply map_eq. intros y. apply option_eq. intros a. rewrite lookup_km_Some. split.
  - intros Hy. destruct (Ho y a Hy) as [x ->]. exists x. by rewrite <- Hx.
  - intros (x & -> & Hm). by rewrite Hx.
Qed.

Lemma map_iter_km (H1 H2 : HashIter) t {A} (m : gmap N A) : @map_iter H2 t N A _ _ (km m) ≡ₚ fp <$> @map_iter H1 t N A _ _ m.
Proof.
  apply NoDup_Permutation; [apply (@NoDup_map_iter H2)| |].
  - apply NoDup_fmap_2; [|apply (@NoDup_map_iter H1)]. intros [a b] [c d] [= ->%(inj f) ->]. done.
  - intros [y a]. rewrite (@elem_of_map_iter H2), lookup_km_Some, elem_of_list_fmap. split.
    + intros (x & -> & Hx). exists (x, a). split; [done|]. by apply (@elem_of_map_iter H1).
    + intros ([x a'] & [= -> ->] & Hx%(@elem_of_map_iter H1)). eauto.
Qed.
Lemma hash_iter_im (H1 H2 : HashIter) t (X : gset N) : @hash_iter H2 t N _ _ (im X) ≡ₚ f <$> @hash_iter H1 t N _ _ X.
Proof.
  rewrite (@hash_iter_perm H1), (@hash_iter_perm H2). apply NoDup_Permutation; [apply NoDup_elements| |].
  - apply NoDup_fmap_2; [done|apply NoDup_elements].
  - intros y. rewrite elem_of_elements, elem_of_list_fmap. unfold im. rewrite elem_of_map. by setoid_rewrite elem_of_elements.
Qed.

(** ** The loop of domset *)
Lemma relax_rename dd v k : ds_relax (km dd) (f v) k = rmap km (ds_relax dd v k).
Proof. unfold ds_relax. rewrite lookup_km. destruct (dd !! v); cbn [unwrap mbind res_bind rmap]; [|done]. by rewrite km_insert. Qed.
Lemma relaxes_rename l dd : relaxes (fp <$> l) (km dd) = rmap km (relaxes l dd).
Proof. unfold relaxes. apply fold_res_rename. intros s [x k] _. apply relax_rename. Qed.

Definition fs (st : ds_state) : ds_state := DsState (im (ds_dom st)) (im (ds_scat st)) (km (ds_dd st)) (km (ds_cnt st)).

Lemma ds_update_rename (H1 H2 : HashIter) W cutoff st p : @ds_update H2 (km2 W) cutoff (fs st) (fp p) = rmap fs (@ds_update H1 W cutoff st p).
Proof.
  destruct p as [u k]. change (fp (u, k)) with (f u, k). rewrite (@ds_update_alt H1), (@ds_update_alt H2). cbn [fs ds_cnt ds_dom ds_dd ds_scat].
  rewrite lookup_km, bd_im. destruct (ds_cnt st !! u) as [c|]; cbn [unwrap mbind res_bind]; [|done]. cbn zeta.
  set (b := (cutoff <? S c) && negb (bool_decide (u ∈ ds_dom st))).
  assert (match @upd_list H2 (km2 W) b (f u) k, @upd_list H1 W b u k with
          | Ok l2, Ok l1 => l2 ≡ₚ fp <$> l1 | Panic, Panic => True | _, _ => False end) as Hu.
  { unfold upd_list. destruct b; [|done]. rewrite lookup_km2. destruct (W !! u) as [Wu|]; cbn [unwrap mbind res_bind fmap option_fmap option_map]; [|done].
    change (?x :: ?y :: list_fmap _ _ fp ?l) with (x :: y :: (fp <$> l)). do 2 constructor. apply map_iter_km. }
  destruct (@upd_list H2 (km2 W) b (f u) k) as [l2| |], (@upd_list H1 W b u k) as [l1| |]; cbn [mbind res_bind]; try done.
  rewrite (relaxes_perm _ _ _ Hu), relaxes_rename. destruct (relaxes l1 (ds_dd st)) as [dd| |]; cbn [rmap mbind res_bind]; [|done..].
  unfold fs. cbn [ds_cnt ds_dom ds_dd ds_scat]. rewrite km_insert. destruct b; [|done]. by rewrite im_insert.
Qed.

Lemma updates_rename (H1 H2 : HashIter) W cutoff (Wv : gmap N nat) st :
  fold_res (@ds_update H2 (km2 W) cutoff) (@map_iter H2 22 _ _ _ _ (km Wv)) (fs st) =
  rmap fs (fold_res (@ds_update H1 W cutoff) (@map_iter H1 22 _ _ _ _ Wv) st).
Proof.
  rewrite <- (fold_res_rename fp fs (@ds_update H1 W cutoff) (@ds_update H2 (km2 W) cutoff)) by (intros; apply ds_update_rename).
  apply fold_res_perm; [apply map_iter_km| |apply (@NoDup_map_iter H2)].
  intros [u1 k1] [u2 k2] s Ha Hb Hne. apply (@elem_of_map_iter H2) in Ha, Hb. apply ds_update_comm. congruence.
Qed.

Lemma vrelax_comm v (Wv : gmap N nat) (s : gmap N nat) a i b j : Wv !! v = None → Wv !! a = Some i → Wv !! b = Some j →
  (s' ← (du ← unwrap (s !! a); ds_relax s v (i + du)); du ← unwrap (s' !! b); ds_relax s' v (j + du)) =
  (s' ← (du ← unwrap (s !! b); ds_relax s v (j + du)); du ← unwrap (s' !! a); ds_relax s' v (i + du)).
Proof.
  intros Hv Ha Hb. assert (a ≠ v ∧ b ≠ v) as [Hav Hbv] by (split; congruence).
  destruct (s !! v) as [dv|] eqn:Ev; cycle 1.
  { destruct (s !! a), (s !! b); cbn [unwrap mbind res_bind]; rewrite ?(relax_none s v) by done; done. }
  destruct (s !! a) as [da|] eqn:Ea, (s !! b) as [db|] eqn:Eb; cbn [unwrap mbind res_bind].
  - rewrite !(relax_some s v dv) by done. cbn [mbind res_bind]. rewrite !lookup_insert_ne by done. rewrite Ea, Eb. cbn [unwrap mbind res_bind].
    erewrite !relax_some by apply lookup_insert. rewrite !insert_insert. do 2 f_equal. lia.
  - rewrite !(relax_some s v dv) by done. cbn [mbind res_bind]. rewrite !lookup_insert_ne by done. by rewrite Eb.
  - rewrite !(relax_some s v dv) by done. cbn [mbind res_bind]. rewrite !lookup_insert_ne by done. by rewrite Ea.
  - done.
Qed.
Lemma vrelax_rename (H1 H2 : HashIter) v (Wv : gmap N nat) dd : Wv !! v = None →
  fold_res (λ (dd : gmap N nat) p, du ← unwrap (dd !! p.1); ds_relax dd (f v) (p.2 + du)) (@map_iter H2 21 _ _ _ _ (km Wv)) (km dd) =
  rmap km (fold_res (λ (dd : gmap N nat) p, du ← unwrap (dd !! p.1); ds_relax dd v (p.2 + du)) (@map_iter H1 21 _ _ _ _ Wv) dd).
Proof.
  intros Hv. rewrite <- (fold_res_rename fp km _ (λ (dd : gmap N nat) p, du ← unwrap (dd !! p.1); ds_relax dd (f v) (p.2 + du))).
  - apply fold_res_perm; [apply map_iter_km| |apply (@NoDup_map_iter H2)].
    intros [a i] [b j] s Ha Hb _. apply (@elem_of_map_iter H2) in Ha, Hb. cbn [fst snd]. apply (vrelax_comm (f v) (km Wv)); [by rewrite lookup_km|done|done].
  - intros s [a i] _. cbn [fp fst snd]. rewrite lookup_km. destruct (s !! a); cbn [unwrap mbind res_bind]; [|done]. apply relax_rename.
Qed.

Lemma ds_step_rename (H1 H2 : HashIter) W T r cutoff st v : (∀ Wv, W !! v = Some Wv → Wv !! v = None) →
  @ds_step H2 (km2 W) (im T) r cutoff (fs st) (f v) = rmap fs (@ds_step H1 W T r cutoff st v).
Proof.
  intros Hself. unfold ds_step. rewrite lookup_km2. destruct (W !! v) as [Wv|]; cbn [unwrap mbind res_bind fmap option_fmap option_map]; [|done].
  change (ds_dd (fs st)) with (km (ds_dd st)). rewrite (vrelax_rename H1 H2) by auto.
  destruct (fold_res _ (@map_iter H1 21 _ _ _ _ Wv) (ds_dd st)) as [dd| |]; cbn [mbind res_bind rmap]; [|done..].
  rewrite lookup_km. destruct (dd !! v) as [dv|]; cbn [unwrap mbind res_bind]; [|done]. destruct (dv <=? r); [done|].
  rewrite bd_im. destruct (assert_res _); cbn [mbind res_bind]; [|done..].
  rewrite <- (updates_rename H1 H2). unfold fs. cbn [ds_cnt ds_dom ds_dd ds_scat]. by rewrite !im_insert, km_insert.
Qed.

Lemma foldl_insert_km {A} (g1 g2 : N → A) l m : (∀ v, v ∈ l → g2 (f v) = g1 v) →
  foldl (λ m v, <[v := g2 v]> m) (km m) (f <$> l) = km (foldl (λ m v, <[v := g1 v]> m) m l).
Proof.
  revert m. induction l as [|v l IH]; intros m Hg; [done|]. cbn [fmap list_fmap foldl]. rewrite Hg by left. rewrite <- km_insert. apply IH.
  intros w Hw. apply Hg. by right.
Qed.
Lemma ds_init_rename T r order : ds_init (im T) r (f <$> order) = fs (ds_init T r order).
Proof.
  unfold ds_init, fs. cbn [ds_cnt ds_dom ds_dd ds_scat]. rewrite im_empty. f_equal.
  - rewrite <- km_empty at 1. rewrite (foldl_insert_km (λ v, if bool_decide (v ∈ T) then r + 1 else r)); [done|].
    intros v _. by rewrite bd_im.
  - rewrite <- km_empty at 1. by rewrite (foldl_insert_km (λ _, 0)).
Qed.
Lemma ds_loop_rename (H1 H2 : HashIter) W T r cutoff order : (∀ v Wv, W !! v = Some Wv → Wv !! v = None) →
  @ds_loop H2 (km2 W) (im T) r cutoff (f <$> order) = rmap fs (@ds_loop H1 W T r cutoff order).
Proof. intros Hself. unfold ds_loop. rewrite ds_init_rename. apply fold_res_rename. intros st v _. apply ds_step_rename. auto. Qed.

(** ** The algorithms *)
Section graphs.
Context (H1 H2 : HashIter) (L1 L2 : lgraph) (HL1 : lgraph_wf L1) (HL2 : lgraph_wf L2) (Hr : lrenames f L1 L2).

Lemma rn_vs : vertices L2 = f <$> vertices L1.
Proof using Hr. exact (proj1 Hr). Qed.

Lemma rn_vtx u : vtx L2 (f u) ↔ vtx L1 u.
Proof using Hf HL1 HL2 Hr. rewrite <- (vs_vtx L1 HL1), <- (vs_vtx L2 HL2), rn_vs. by rewrite (elem_of_list_fmap_inj f). Qed.
Lemma rn_out y : vtx L2 y → ∃ x, y = f x.
Proof using HL2 Hr. rewrite <- (vs_vtx L2 HL2), rn_vs, elem_of_list_fmap. naive_solver. Qed.
Lemma rn_contains u : contains L2 (f u) = contains L1 u.
Proof using Hf HL1 HL2 Hr. pose proof (rn_vtx u) as Hv. unfold vtx in Hv. destruct (contains L1 u), (contains L2 (f u)); naive_solver. Qed.
Lemma rn_adjacent u v : adjacent L2 (f u) (f v) = adjacent L1 u v.
Proof using Hf HL1 HL2 Hr.
  destruct (decide (contains L1 u = true ∧ contains L1 v = true)) as [[Hu Hv]|Hn]; [symmetry; by apply Hr|].
  assert (∀ L x y, lgraph_wf L → adjacent L x y = true → vtx L x ∧ vtx L y) as Hav.
  { intros L x y HL Ha. pose proof (wf_adj_sym _ (lwf_graph _ HL) _ _ Ha). split; by eapply (wf_adj_vtx _ (lwf_graph _ HL)). }
  destruct (adjacent L2 (f u) (f v)) eqn:E2, (adjacent L1 u v) eqn:E1; [done| | |done]; exfalso; apply Hn.
  - apply (Hav L2 _ _ HL2) in E2. by rewrite !rn_vtx in E2.
  - by apply (Hav L1 _ _ HL1).
Qed.
Lemma rn_adj u v : adj L2 (f u) (f v) ↔ adj L1 u v.
Proof using Hf HL1 HL2 Hr. unfold adj. by rewrite rn_adjacent. Qed.
Lemma rn_adj_out u y : adj L2 u y → ∃ x, y = f x.
Proof using HL2 Hr. intros Ha%(wf_adj_sym _ (lwf_graph _ HL2))%(wf_adj_vtx _ (lwf_graph _ HL2)). by apply rn_out. Qed.
Lemma rn_before u v : before (vertices L2) (f u) (f v) ↔ before (vertices L1) u v.
Proof using Hf Hr.
  rewrite rn_vs. unfold before, pos. split.
  - intros (i & j & Hi & Hj & Hij). rewrite list_lookup_fmap in Hi, Hj. apply fmap_Some in Hi as (x & Hi & <-%(inj f)), Hj as (y & Hj & <-%(inj f)). eauto.
  - intros (i & j & Hi & Hj & Hij). exists i, j. by rewrite !list_lookup_fmap, Hi, Hj.
Qed.
Lemma rn_not_left u x : not_left L2 (f u) (f x) ↔ not_left L1 u x.
Proof using Hf Hr. unfold not_left. rewrite rn_before. split; (intros [Hx|?]; [left|by right]); [by apply (inj f)|by subst]. Qed.
Lemma rn_not_left_out u y : not_left L2 (f u) y → ∃ x, y = f x.
Proof using HL2 Hr. intros [->|Hb]; [eauto|]. apply rn_out. by apply (before_vtx L2 HL2) in Hb as [_ ?]. Qed.
Lemma rn_num : num_vertices L2 = num_vertices L1.
Proof using HL1 HL2 Hr. rewrite (wf_num_vertices _ (lwf_graph _ HL1)), (wf_num_vertices _ (lwf_graph _ HL2)), rn_vs. apply fmap_length. Qed.
Lemma rn_degree u : vtx L1 u → degree L2 (f u) = degree L1 u.
Proof using Hf HL1 HL2 Hr.
  intros Hu. destruct (wf_neighbours _ (lwf_graph _ HL1) u Hu) as (l1 & _ & Hn1 & He1 & ->).
  destruct (wf_neighbours _ (lwf_graph _ HL2) (f u) (proj2 (rn_vtx u) Hu)) as (l2 & _ & Hn2 & He2 & ->).
  rewrite rn_adjacent. f_equal. rewrite <- (fmap_length f l1). apply Permutation_length, NoDup_Permutation; [done|by apply NoDup_fmap_2|].
  intros y. rewrite He2, elem_of_list_fmap. split.
  - intros Ha. destruct (rn_adj_out _ _ Ha) as [x ->]. exists x. by rewrite He1, <- rn_adj.
  - intros (x & -> & Hx%He1). by apply rn_adj.
Qed.
Lemma rn_right u : vtx L1 u → right_degree L2 (f u) = right_degree L1 u.
Proof using Hf HL1 HL2 Hr.
  intros Hu. destruct (lwf_right _ HL1 u Hu) as (l1 & Hn1 & -> & He1), (lwf_right _ HL2 (f u) (proj2 (rn_vtx u) Hu)) as (l2 & Hn2 & -> & He2).
  rewrite <- (fmap_length f l1). apply Permutation_length, NoDup_Permutation; [done|by apply NoDup_fmap_2|].
  intros y. rewrite He2, elem_of_list_fmap. split.
  - intros [Ha Hb]. destruct (rn_adj_out _ _ Ha) as [x ->]. exists x. rewrite He1, <- rn_adj, <- rn_before. done.
  - intros (x & -> & Hx%He1). by rewrite rn_adj, rn_before.
Qed.
Lemma rn_left u : vtx L1 u → left_neighbours L2 (f u) = rmap (fmap f) (left_neighbours L1 u).
Proof using Hf HL1 HL2 Hr.
  intros Hu. destruct (lwf_left _ HL1 u Hu) as (l1 & -> & Ha1 & Hb1), (lwf_left _ HL2 (f u) (proj2 (rn_vtx u) Hu)) as (l2 & -> & Hl2).
  cbn [rmap]. f_equal. eapply lists_in_order_unique; [apply (vs_nodup L2 HL2)|exact Hl2|]. split.
  - intros y. rewrite elem_of_list_fmap. split.
    + intros (x & -> & Hx%Ha1). by rewrite rn_adj, rn_before.
    + intros [Ha Hb]. destruct (rn_adj_out _ _ Ha) as [x ->]. exists x. rewrite Ha1, <- rn_adj, <- rn_before. done.
  - intros i j x y Hi Hj Hij. rewrite list_lookup_fmap in Hi, Hj. apply fmap_Some in Hi as (x' & Hi & ->), Hj as (y' & Hj & ->).
    apply rn_before. by eapply Hb1.
Qed.
Lemma rn_left_degree u : left_degree L2 (f u) = left_degree L1 u.
Proof using Hf HL1 HL2 Hr.
  unfold left_degree. rewrite rn_contains. destruct (contains L1 u) eqn:E; [|done]. rewrite rn_left by done.
  destruct (left_neighbours L1 u); cbn [rmap mbind res_bind]; [|done..]. by rewrite fmap_length.
Qed.
Lemma rn_order : ds_order L2 = rmap (fmap f) (ds_order L1).
Proof using Hf HL1 HL2 Hr.
  unfold ds_order. rewrite rn_vs, rn_num.
  assert (∀ l : list N, (∀ u, u ∈ l → vtx L1 u) → mapM (λ u, d ← left_degree L2 u; Ok (d * num_vertices L1 + degree L2 u, u)) (f <$> l) =
    rmap (map (fkey f)) (mapM (λ u, d ← left_degree L1 u; Ok (d * num_vertices L1 + degree L1 u, u)) l)) as Hm.
  { induction l as [|u l IH]; intros Hl; [done|]. cbn [fmap list_fmap mapM]. rewrite rn_left_degree, rn_degree by (apply Hl; left).
    destruct (left_degree L1 u) as [d| |]; cbn [mbind res_bind]; [|done..].
    specialize (IH (λ x Hx, Hl x (elem_of_list_further _ _ _ Hx))). cbn [fmap] in IH. rewrite IH.
    match goal with |- context [rmap _ ?x] => destruct x end; done. }
  rewrite Hm; [|intros u; by rewrite (vs_vtx L1 HL1)]. rewrite bind_rmap, rmap_bind.
  match goal with |- (_ ← ?x; _) = _ => destruct x as [ks| |] end; cbn [mbind res_bind rmap]; [|done..].
  f_equal. rewrite merge_sort_fkey. rewrite <- !list_fmap_compose. done.
Qed.

Lemma rn_walk p : walk (adj L2) (f <$> p) ↔ walk (adj L1) p.
Proof using Hf HL1 HL2 Hr. induction p as [|x [|y p] IH]; [done|done|]. cbn [walk fmap list_fmap] in *. by rewrite rn_adj, IH. Qed.
Lemma pull_list (p : list N) : (∀ y, y ∈ p → ∃ x, y = f x) → ∃ q, p = f <$> q.
Proof using.
  induction p as [|y p IH]; intros Hp; [by exists []|]. destruct (Hp y) as [x ->]; [left|].
  destruct IH as [q ->]; [intros z Hz; apply Hp; by right|]. by exists (x :: q).
Qed.
Lemma head_fmap_f (p : list N) u : head (f <$> p) = Some (f u) ↔ head p = Some u.
Proof using Hf. destruct p as [|x p]; cbn; [done|]. split; [by intros [= ->%(inj f)]|by intros [= ->]]. Qed.
Lemma rn_wwalk u v k : wreach_walk L2 (f u) (f v) k ↔ wreach_walk L1 u v k.
Proof using Hf HL1 HL2 Hr.
  unfold wreach_walk. split.
  - intros (p & Hl & Hh & Hla & Hw & Hn). destruct (pull_list p) as [q ->]; [intros y Hy; by eapply rn_not_left_out, Hn|].
    exists q. rewrite fmap_length in Hl. rewrite fmap_last in Hla. apply fmap_Some in Hla as (x & Hla & <-%(inj f)).
    split_and!; [done|by apply head_fmap_f|done|by apply rn_walk|]. intros y Hy. apply rn_not_left, Hn. by apply elem_of_list_fmap_1.
  - intros (p & Hl & Hh & Hla & Hw & Hn). exists (f <$> p). rewrite fmap_length, fmap_last, Hla.
    split_and!; [done|by apply head_fmap_f|done|by apply rn_walk|]. intros y (x & -> & Hx)%elem_of_list_fmap. apply rn_not_left. auto.
Qed.
Lemma rn_swalk u v k : sreach_walk L2 (f u) (f v) k ↔ sreach_walk L1 u v k.
Proof using Hf HL1 HL2 Hr.
  unfold sreach_walk. split.
  - intros (p & Hl & Hh & Hw & Hn). destruct (pull_list p) as [q ->]; [intros y Hy; by eapply rn_not_left_out, Hn|].
    exists q. rewrite fmap_length in Hl. change [f v] with (f <$> [v]) in Hh, Hw. rewrite <- fmap_app in Hh, Hw.
    split_and!; [done|by apply head_fmap_f|by apply rn_walk|]. intros y Hy. apply rn_not_left, Hn. by apply elem_of_list_fmap_1.
  - intros (p & Hl & Hh & Hw & Hn). exists (f <$> p). change [f v] with (f <$> [v]). rewrite <- fmap_app, fmap_length.
    split_and!; [done|by apply head_fmap_f|by apply rn_walk|]. intros y (x & -> & Hx)%elem_of_list_fmap. apply rn_not_left. auto.
Qed.

Lemma rn_wreach_sets r : @wreach_sets H2 L2 r = rmap km2 (@wreach_sets H1 L1 r).
Proof using Hf HL1 HL2 Hr.
  destruct (decide (N.of_nat r + 1 < u32_mod)%N) as [Hlt|Hge].
  - destruct (@wreach_sets_spec H1 L1 HL1 r Hlt) as (W1 & -> & Hd1 & Hs1), (@wreach_sets_spec H2 L2 HL2 r Hlt) as (W2 & -> & Hd2 & Hs2).
    cbn [rmap]. f_equal. apply km_eq.
    + intros u. rewrite lookup_fmap. specialize (Hd1 u). specialize (Hd2 (f u)). rewrite rn_vtx, <- Hd1 in Hd2.
      destruct (W1 !! u) as [w1|] eqn:E1, (W2 !! f u) as [w2|] eqn:E2; cbn.
      * f_equal. apply km_eq.
        -- intros v. apply option_eq. intros k. rewrite (Hs1 u w1 E1 v k), (Hs2 (f u) w2 E2 (f v) k).
           by rewrite rn_before, (two_least _ _ k (rn_wwalk u v)).
        -- intros y a Hy. apply (Hs2 _ _ E2) in Hy as (Hb & _). apply rn_out. by apply (before_vtx L2 HL2) in Hb as [? _].
      * exfalso. destruct (proj2 Hd2); eauto. done.
      * exfalso. destruct (proj1 Hd2); eauto. done.
      * done.
    + intros y a Hy. apply rn_out, Hd2. eauto.
  - assert (∀ (H : HashIter) L, lgraph_wf L → wreach_sets L r = match vertices L with [] => Ok ∅ | _ => Panic end) as Hall.
    { intros H L HL. unfold wreach_sets, const_map. destruct (vertices L) as [|v vs] eqn:E; [done|]. cbn [fold_res].
      unfold right_bfs. destruct (lwf_index _ HL v) as [i ->]; [apply (vs_vtx L HL); rewrite E; left|]. cbn [mbind res_bind].
      replace (N.of_nat r + 1 <? u32_mod)%N with false by (symmetry; apply N.ltb_ge; lia). done. }
    rewrite (Hall H1 L1 HL1), (Hall H2 L2 HL2). rewrite rn_vs. destruct (vertices L1); [|done]. done.
Qed.

Lemma rn_right_bfs root dist : @right_bfs H2 L2 (f root) dist = rmap (fmap im) (@right_bfs H1 L1 root dist).
Proof using Hf HL1 HL2 Hr.
  destruct (contains L1 root) eqn:Ec; cycle 1.
  { unfold right_bfs. rewrite (lwf_index_panic L1 HL1), (lwf_index_panic L2 HL2); [done| |]; unfold vtx; [rewrite rn_contains|]; by rewrite Ec. }
  pose proof Ec as Ec2. rewrite <- rn_contains in Ec2.
  destruct (decide (N.of_nat dist + 1 < u32_mod)%N) as [Hlt|Hge].
  - destruct (@right_bfs_spec H1 L1 HL1 root dist Ec Hlt) as (l1 & -> & Hn1 & Hl1), (@right_bfs_spec H2 L2 HL2 (f root) dist Ec2 Hlt) as (l2 & -> & Hn2 & Hl2).
    cbn [rmap]. f_equal. apply list_eq. intros d. rewrite list_lookup_fmap. destruct (l1 !! d) as [X|] eqn:E1, (l2 !! d) as [Y|] eqn:E2; cbn [fmap option_fmap option_map]; [| | |done].
    + f_equal. assert (∀ n x y, nsteps (right_adj L2 (f root)) n (f x) (f y) ↔ nsteps (right_adj L1 root) n x y) as Hn.
      { intros n x y. split.
        - revert x. induction n as [|n IH]; intros x Hst; inversion Hst as [|? ? z ? Hxz Hzy]; subst.
          + assert (x = y) as -> by (by apply (inj f)). constructor.
          + destruct Hxz as (Ha & Hx & Hz). destruct (rn_adj_out _ _ Ha) as [w ->]. econstructor; [|by apply IH].
            unfold right_adj. by rewrite <- rn_adj, <- !rn_not_left.
        - intros Hst. refine (nsteps_congruence f _ n x y _ Hst). intros a b (? & ? & ?). unfold right_adj. by rewrite rn_adj, !rn_not_left. }
      apply im_eq.
      * intros v. rewrite (Hl1 d X E1), (Hl2 d Y E2). unfold is_dist. rewrite Hn.
        split; intros [? Hm]; (split; [done|]); intros j Hj; apply Hm; by apply Hn.
      * intros y [Hst _]%(Hl2 d Y E2). clear -Hst HL2 Hr. destruct d as [|d]; [inversion Hst; subst; eauto|].
        apply nsteps_inv_r in Hst as (z & _ & Ha & _). by eapply rn_adj_out.
    + exfalso. apply lookup_lt_Some in E1. apply lookup_ge_None in E2. lia.
    + exfalso. apply lookup_lt_Some in E2. apply lookup_ge_None in E1. lia.
  - unfold right_bfs. destruct (lwf_index _ HL1 root Ec) as [i ->], (lwf_index _ HL2 (f root) Ec2) as [j ->]. cbn [mbind res_bind].
    replace (N.of_nat dist + 1 <? u32_mod)%N with false by (symmetry; apply N.ltb_ge; lia). done.
Qed.

Lemma rn_sreach_set u r : @sreach_set H2 L2 (f u) r = rmap km (@sreach_set H1 L1 u r).
Proof using Hf HL1 HL2 Hr.
  destruct r as [|r]; [done|]. destruct (contains L1 u) eqn:Ec; cycle 1.
  { unfold sreach_set. cbn [sub_checked mbind res_bind]. destruct (sub_checked (S r) 1) as [k| |]; cbn [mbind res_bind]; [|done..].
    unfold right_bfs. rewrite (lwf_index_panic L1 HL1), (lwf_index_panic L2 HL2); [done| |]; unfold vtx; [rewrite rn_contains|]; by rewrite Ec. }
  pose proof Ec as Ec2. rewrite <- rn_contains in Ec2.
  destruct (decide (N.of_nat (S r) < u32_mod)%N) as [Hlt|Hge].
  - destruct (@sreach_set_spec H1 L1 HL1 u (S r) Ec) as (s1 & -> & Hs1); [lia|done|].
    destruct (@sreach_set_spec H2 L2 HL2 (f u) (S r) Ec2) as (s2 & -> & Hs2); [lia|done|].
    cbn [rmap]. f_equal. apply km_eq.
    + intros v. apply option_eq. intros k. rewrite (Hs1 v k), (Hs2 (f v) k). by rewrite rn_before, (two_least _ _ k (rn_swalk u v)).
    + intros y a Hy. apply Hs2 in Hy as (Hb & _). apply rn_out. by apply (before_vtx L2 HL2) in Hb as [? _].
  - unfold sreach_set. change (sub_checked (S r) 1) with (Ok r : res nat) || (unfold sub_checked; cbn [Nat.leb Nat.sub]; rewrite ?Nat.sub_0_r).
    cbn [mbind res_bind]. unfold right_bfs. destruct (lwf_index _ HL1 u Ec) as [i ->], (lwf_index _ HL2 (f u) Ec2) as [j ->]. cbn [mbind res_bind].
    replace (N.of_nat r + 1 <? u32_mod)%N with false by (symmetry; apply N.ltb_ge; lia). done.
Qed.

Lemma size_km {A} (m : gmap N A) : size (km m) = size m.
Proof using Hf.
  induction m as [|x a m Hx IH] using map_ind; [by rewrite km_empty|].
  rewrite km_insert, !map_size_insert_None; [by rewrite IH|done|by rewrite lookup_km].
Qed.
Lemma rn_sreach_sets r : @sreach_sets H2 L2 r = rmap km2 (@sreach_sets H1 L1 r).
Proof using Hf HL1 HL2 Hr.
  unfold sreach_sets. rewrite rn_vs. rewrite <- (km2_empty (A := nat)) at 1.
  apply fold_res_rename. intros m u _. rewrite rn_sreach_set. destruct (sreach_set L1 u r); cbn [rmap mbind res_bind]; [|done..].
  f_equal. unfold km2. by rewrite fmap_insert, km_insert.
Qed.
Lemma rn_sreach_sizes r : @sreach_sizes H2 L2 r = rmap km (@sreach_sizes H1 L1 r).
Proof using Hf HL1 HL2 Hr.
  unfold sreach_sizes. rewrite rn_vs. rewrite <- (km_empty (A := nat)) at 1.
  apply fold_res_rename. intros m u _. rewrite rn_sreach_set. destruct (sreach_set L1 u r); cbn [rmap mbind res_bind]; [|done..].
  by rewrite km_insert, size_km.
Qed.
Lemma upd_km (v : N) (m : gmap N nat) : map_upd 0 S (f v) (km m) = km (map_upd 0 S v m).
Proof using Hf. unfold map_upd. by rewrite lookup_km, km_insert. Qed.
Lemma rn_wreach_sizes r : @wreach_sizes H2 L2 r = rmap km (@wreach_sizes H1 L1 r).
Proof using Hf HL1 HL2 Hr.
  unfold wreach_sizes, const_map. rewrite rn_vs. rewrite <- (km_empty (A := nat)) at 1.
  rewrite (foldl_insert_km (λ _, 0)) by done.
  apply fold_res_rename. intros m u _. rewrite rn_right_bfs. destruct (@right_bfs H1 L1 u r) as [ls| |]; cbn [rmap mbind res_bind]; [|done..].
  f_equal. rewrite <- fmap_drop. revert m. induction (drop 1 ls) as [|X Xs IH]; intros m; [done|]. cbn [fmap list_fmap foldl].
  rewrite <- IH. f_equal. rewrite (foldl_upd_perm _ _ (hash_iter_im H1 H2 3 X)).
  generalize (@hash_iter H1 3 _ _ _ X). intros l. revert m. induction l as [|v l IHl]; intros m; [done|]. cbn [fmap list_fmap foldl]. rewrite upd_km. apply IHl.
Qed.

Lemma rn_greedy : colour_greedy L2 = rmap km (colour_greedy L1).
Proof using Hf HL1 HL2 Hr.
  unfold colour_greedy. rewrite rn_vs. set (b := λ st : gmap N N * list N, (km st.1, st.2)).
  transitivity (st ← fold_res (λ st v, let '(colours, used) := (st : gmap N N * list N) in
      ns ← left_neighbours L2 v; ncols ← mapM (λ x, unwrap (colours !! x)) ns;
      if length ncols =? length used then let c := N.of_nat (length used) in Ok (<[v := c]> colours, used ++ [c])
      else Ok (match head (filter (λ c, c ∉ ncols) used) with Some c => <[v := c]> colours | None => colours end, used)) (f <$> vertices L1) (b (∅, [])); Ok st.1).
  { unfold b. cbn [fst snd]. by rewrite km_empty. }
  erewrite (fold_res_rename f b); [rewrite bind_rmap, rmap_bind; done|].
  intros [cs used] v Hv. cbn beta. unfold b at 1. cbn [fst snd]. rewrite rn_left by (by apply (vs_vtx L1 HL1)).
  destruct (left_neighbours L1 v) as [ns| |]; cbn [rmap mbind res_bind]; [|done..].
  assert (mapM (λ x, unwrap (km cs !! x)) (f <$> ns) = mapM (λ x, unwrap (cs !! x)) ns) as Hm.
  { induction ns as [|x ns IH]; [done|]. cbn [fmap list_fmap mapM]. cbn [fmap] in IH. by rewrite lookup_km, IH. }
  rewrite Hm. destruct (mapM _ ns) as [nc| |]; cbn [rmap mbind res_bind]; [|done..].
  destruct (length nc =? length used); cbn [rmap]; unfold b; cbn [fst snd].
  - by rewrite km_insert.
  - destruct (head _); [by rewrite km_insert|done].
Qed.

(** Cliques: the collected sets are the images. *)
Definition im2 (R : gset (gset N)) : gset (gset N) := set_map im R.
Lemma im2_empty : im2 ∅ = ∅.
Proof using. apply set_map_empty. Qed.
Lemma im2_insert X R : im2 ({[X]} ∪ R) = {[im X]} ∪ im2 R.
Proof using. unfold im2. by rewrite set_map_union_L, set_map_singleton_L. Qed.
Lemma im2_difference X R : im2 (R ∖ {[X]}) = im2 R ∖ {[im X]}.
Proof using Hf.
  apply set_eq. intros Y. unfold im2. rewrite elem_of_difference, !elem_of_map, elem_of_singleton. split.
  - intros (Z & -> & [HZ HZX%not_elem_of_singleton]%elem_of_difference). split; [eauto|]. by intros ->%(inj im).
  - intros [(Z & -> & HZ) Hn]. exists Z. split; [done|]. rewrite elem_of_difference, elem_of_singleton. split; [done|]. by intros ->.
Qed.
Lemma size_im2 R : size (im2 R) = size R.
Proof using Hf.
  unfold im2. unfold size, set_size. cbn. rewrite <- (fmap_length im (elements R)). apply Permutation_length, NoDup_Permutation.
  - apply NoDup_elements.
  - apply NoDup_fmap_2; [apply im_inj|apply NoDup_elements].
  - intros y. rewrite elem_of_elements, elem_of_list_fmap, elem_of_map. by setoid_rewrite elem_of_elements.
Qed.
Lemma bk_report_rename v X R : bk_report (f v) (im X) (im2 R) = im2 (bk_report v X R).
Proof using Hf.
  unfold bk_report. rewrite size_im. destruct (1 <? size X); [|by rewrite im2_insert].
  rewrite im2_difference, im2_insert, im_difference. do 3 f_equal. unfold im. by rewrite set_map_singleton_L.
Qed.
Lemma bk_pivot_rename vs X Y : bk_pivot (f <$> vs) (im X) (im Y) = prod_map id f <$> bk_pivot vs X Y.
Proof using Hf.
  unfold bk_pivot. assert (imap pair (f <$> vs) = prod_map id f <$> imap pair vs) as ->.
  { rewrite imap_fmap. apply list_eq. intros i. rewrite list_lookup_fmap, !list_lookup_imap. by destruct (vs !! i). }
  rewrite (list_filter_map _ _ (λ p : nat * N, p.2 ∈ X ∨ p.2 ∈ Y)); [apply fmap_last|]. intros [i x]. cbn. by rewrite !elem_im.
Qed.
Lemma bk_rename fuel : ∀ v vs include maybe exclude results,
  bk_pivot_count fuel L2 (f v) (f <$> vs) (im include) (im maybe) (im exclude) (im2 results) =
  rmap im2 (bk_pivot_count fuel L1 v vs include maybe exclude results).
Proof using Hf HL1 HL2 Hr.
  induction fuel as [|fuel IH]; intros v vs include maybe exclude results; [done|]. cbn [bk_pivot_count].
  rewrite (bool_decide_ext (im maybe = ∅) (maybe = ∅)) by apply im_empty_iff.
  rewrite (bool_decide_ext (im exclude = ∅) (exclude = ∅)) by apply im_empty_iff.
  destruct (bool_decide (maybe = ∅) && bool_decide (exclude = ∅)); [cbn [rmap]; by rewrite bk_report_rename|].
  rewrite bk_pivot_rename. destruct (bk_pivot vs maybe exclude) as [[iu u]|]; cbn [unwrap mbind res_bind fmap option_fmap option_map prod_map fst snd id]; [|done].
  change (list_fmap N N f) with (fmap (M := list) f). rewrite <- !fmap_take, <- fmap_reverse.
  rewrite (list_filter_map f _ (λ x, adjacent L1 u x = true)) by (intros x; by rewrite rn_adjacent).
  set (left := filter (λ x, adjacent L1 u x = true) (take iu vs)). rewrite <- im_list.
  set (b := λ st : gset N * gset N * gset N * gset (gset N), (im st.1.1.1, im st.1.1.2, im st.1.2, im2 st.2)).
  change (im include, im maybe, im exclude, im2 results) with (b (include, maybe, exclude, results)).
  erewrite (fold_res_rename f b); [rewrite bind_rmap, rmap_bind; done|].
  intros [[[inc may] exc] res] w _. unfold b at 1. cbn [fst snd]. rewrite !bd_im.
  destruct (negb (bool_decide (w ∈ may)) || bool_decide (w ∈ list_to_set left)); [done|].
  rewrite <- !im_insert, <- !im_intersection, IH.
  destruct (bk_pivot_count fuel L1 v left _ _ _ res) as [R| |]; cbn [rmap mbind res_bind]; [|done..].
  f_equal. unfold b. cbn [fst snd]. by rewrite !im_difference, !im_singleton.
Qed.
Lemma rn_count : count_max_cliques L2 = count_max_cliques L1.
Proof using Hf HL1 HL2 Hr.
  unfold count_max_cliques. rewrite rn_vs.
  assert (fold_res (λ results v, ns ← left_neighbours L2 v; bk_pivot_count (S (length ns)) L2 v ns {[v]} (list_to_set ns) ∅ results) (f <$> vertices L1) (im2 ∅) =
    rmap im2 (fold_res (λ results v, ns ← left_neighbours L1 v; bk_pivot_count (S (length ns)) L1 v ns {[v]} (list_to_set ns) ∅ results) (vertices L1) ∅)) as Hb.
  { apply fold_res_rename. intros R v Hv. cbn beta. rewrite rn_left by (by apply (vs_vtx L1 HL1)).
    destruct (left_neighbours L1 v) as [ns| |]; cbn [rmap mbind res_bind]; [|done..].
    by rewrite fmap_length, <- bk_rename, im_list, im_empty, im_singleton. }
  rewrite im2_empty in Hb. rewrite Hb, bind_rmap. match goal with |- (_ ← ?x; _) = _ => destruct x as [R| |] end; cbn [mbind res_bind]; [|done..].
  by rewrite size_im2.
Qed.

Lemma rn_domset r T : @domset_with_target H2 L2 r false (f <$> T) =
  rmap (λ x, (im x.1.1, km x.1.2, None)) (@domset_with_target H1 L1 r false T).
Proof using Hf HL1 HL2 Hr.
  unfold domset_with_target, g_is_empty, g_len. cbn [negb]. rewrite rn_num, rn_order, (rn_wreach_sets r).
  assert (collect_set (f <$> T) = im (collect_set T)) as ->.
  { unfold collect_set. by rewrite im_list. }
  rewrite (bool_decide_ext (im (collect_set T) = ∅) (collect_set T = ∅)) by apply im_empty_iff.
  destruct (_ || _); [cbn [rmap fst snd]; by rewrite im_empty, km_empty|].
  destruct (N.of_nat (2 * r) * N.of_nat (2 * r) <? u32_mod)%N eqn:Er; cbn [assert_res mbind res_bind]; [|done].
  destruct (ds_order L1) as [order| |]; cbn [mbind res_bind rmap]; [|done..].
  destruct (@wreach_sets H1 L1 r) as [W| |] eqn:EW; cbn [mbind res_bind rmap]; [|done..].
  rewrite (ds_loop_rename H1 H2).
  - rewrite bind_rmap, rmap_bind. done.
  - intros v Wv Hv. destruct (@wreach_sets_spec H1 L1 HL1 r) as (W' & HW' & Hm); [apply N.ltb_lt in Er; unfold u32_mod in *; nia|].
    assert (W' = W) as -> by congruence. destruct (Wv !! v) as [k|] eqn:E; [|done].
    by destruct (wm_entry L1 HL1 r W Hm v Wv v k Hv E) as (_ & ? & _).
Qed.
End graphs.
End rename.
