(** Proofs about operations.rs and compare.rs. *)
From Verif Require Import Base Spec M_Graph M_Iterators M_EditGraph M_Operations S_Graph S_Multi
  P_EditGraph P_EditGraph2 P_Graph P_Iterators P_Adds P_Generators P_Unions.

Lemma elem_of_combinations2 {A} (l : list A) u v : NoDup l →
  ((u, v) ∈ combinations2 l ∨ (v, u) ∈ combinations2 l) ↔ u ∈ l ∧ v ∈ l ∧ u ≠ v.
Proof.
  induction l as [|x l IH]; intros Hnd; cbn [combinations2].
  - set_solver.
  - apply NoDup_cons in Hnd as [Hx Hnd]. specialize (IH Hnd).
    rewrite !elem_of_app, !elem_of_list_fmap, !elem_of_cons. split.
    + intros [[(y & [= -> ->] & ?)|?]|[(y & [= -> ->] & ?)|?]].
      * split_and!; [by left|by right|]. intros ->. done.
      * destruct IH as [IH _]. destruct IH as (? & ? & ?); [by left|]. auto.
      * split_and!; [by right|by left|]. intros ->. done.
      * destruct IH as [IH _]. destruct IH as (? & ? & ?); [by right|]. auto.
    + intros ([->|Hu] & [->|Hv] & Hne); [done| | |].
      * left; left. eauto.
      * right; left. eauto.
      * destruct IH as [_ IH]. destruct IH as [?|?]; [done|left; by right|right; by right].
Qed.
Lemma elem_of_combinations2_1 {A} (l : list A) u v : NoDup l → (u, v) ∈ combinations2 l → u ∈ l ∧ v ∈ l ∧ u ≠ v.
Proof. intros Hnd H. apply (elem_of_combinations2 l u v Hnd). by left. Qed.

Section with_iter.
Context `{HI : HashIter}.

Lemma invert_spec G : weak_wf G →
  ∃ h, invert G = Ok h ∧ eg_wf h ∧ (∀ x, ev h x ↔ vtx G x) ∧
    (∀ x y, ea h x y ↔ vtx G x ∧ vtx G y ∧ x ≠ y ∧ ¬ adj G x y).
Proof.
  intros Hwf. unfold invert.
  assert (adds (fold_res (λ h p, if negb (adjacent G p.1 p.2)
                   then r ← eg_add_edge h p.1 p.2; Ok r.1 else Ok h) (combinations2 (vertices G)))
     (λ x, ∃ p, p ∈ combinations2 (vertices G) ∧ (¬ adj G p.1 p.2 ∧ (x = p.1 ∨ x = p.2)))
     (λ x y, ∃ p, p ∈ combinations2 (vertices G) ∧ (¬ adj G p.1 p.2 ∧ ((x = p.1 ∧ y = p.2) ∨ (x = p.2 ∧ y = p.1))))) as HA.
  { apply adds_fold. intros p _. unfold adj. destruct (adjacent G p.1 p.2); cbn [negb].
    - eapply adds_ext; [apply adds_ret|done|naive_solver|naive_solver].
    - eapply adds_ext; [apply adds_edge|done|naive_solver|naive_solver]. }
  pose proof (adds_seq _ _ _ _ _ _ (adds_add_vertices (vertices G)) HA) as HB. cbn [mbind res_bind] in HB.
  apply adds_new in HB as (h & Hok & Hh & HV & HE). exists h. split_and!; [exact Hok|done| |].
  - intros x. rewrite HV, (ww_vertices _ Hwf). split; [|auto].
    intros [?|([a b] & Hp & _ & Hx)]; [done|]. apply elem_of_combinations2_1 in Hp as (Ha & Hb & _); [|apply (ww_vertices_nodup _ Hwf)].
    cbn in Hx. destruct Hx as [->| ->]; by apply (ww_vertices _ Hwf).
  - intros x y. rewrite HE. split.
    + intros [[]|([a b] & Hp & Hn & Hx)]. apply elem_of_combinations2_1 in Hp as (Ha & Hb & Hne); [|apply (ww_vertices_nodup _ Hwf)].
      rewrite (ww_vertices _ Hwf) in Ha, Hb. cbn in Hx, Hn.
      destruct Hx as [[-> ->]|[-> ->]]; split_and!; auto. intros ?%(ww_adj_sym _ Hwf). done.
    + intros (Hx & Hy & Hne & Hn). right.
      rewrite <- !(ww_vertices _ Hwf) in Hx, Hy.
      destruct (proj2 (elem_of_combinations2 (vertices G) x y (ww_vertices_nodup _ Hwf))) as [Hp|Hp]; [done| |].
      * exists (x, y). split_and!; [done|done|]. by left.
      * exists (y, x). split_and!; [done| |by right]. intros ?%(ww_adj_sym _ Hwf). done.
Qed.

Lemma adds_edges_of G (P : N * N → Prop) `{∀ e, Decision (P e)} es : weak_wf G →
  (∀ u v, (u, v) ∈ es ↔ (u <= v)%N ∧ adj G u v) → (∀ u v, P (u, v) ↔ P (v, u)) →
  adds (λ h, r ← eg_add_edges h (filter P es); Ok r.1)
    (λ x, ∃ y, adj G x y ∧ P (x, y)) (λ x y, adj G x y ∧ P (x, y)).
Proof.
  intros Hwf Hes HP. eapply adds_ext; [apply (adds_add_edges (filter P es))|done| |].
  - intros x. split.
    + intros ([a b] & Hin & Hx). apply elem_of_list_filter in Hin as [Hp [Hle Hab]%Hes]. cbn in Hx.
      destruct Hx as [->| ->]; [eauto|]. exists a. split; [by apply (ww_adj_sym _ Hwf)|by apply HP].
    + intros (y & Hxy & Hp). destruct (N.le_gt_cases x y).
      * exists (x, y). split; [|by left]. apply elem_of_list_filter. split; [done|]. by apply Hes.
      * exists (y, x). split; [|by right]. apply elem_of_list_filter. split; [by apply HP|].
        apply Hes. split; [lia|]. by apply (ww_adj_sym _ Hwf).
  - intros x y. split.
    + intros ([a b] & Hin & Hx). apply elem_of_list_filter in Hin as [Hp [Hle Hab]%Hes]. cbn in Hx.
      destruct Hx as [[-> ->]|[-> ->]]; [done|]. split; [by apply (ww_adj_sym _ Hwf)|by apply HP].
    + intros (Hxy & Hp). destruct (N.le_gt_cases x y).
      * exists (x, y). split; [|by left]. apply elem_of_list_filter. split; [done|]. by apply Hes.
      * exists (y, x). split; [|by right]. apply elem_of_list_filter. split; [by apply HP|].
        apply Hes. split; [lia|]. by apply (ww_adj_sym _ Hwf).
Qed.

Lemma adds_all_edges G es : weak_wf G →
  (∀ u v, (u, v) ∈ es ↔ (u <= v)%N ∧ adj G u v) →
  adds (λ h, r ← eg_add_edges h es; Ok r.1) (λ x, ∃ y, adj G x y) (λ x y, adj G x y).
Proof.
  intros Hwf Hes. eapply adds_ext; [apply (adds_edges_of G (λ _, True) es Hwf Hes); done| | |].
  - intros h. cbv beta. replace (filter (λ _ : N * N, True) es) with es; [done|].
    clear. induction es as [|e es IH]; [done|]. rewrite filter_cons_True by done. by f_equal.
  - naive_solver.
  - naive_solver.
Qed.

Lemma merge_spec G H : weak_wf G → weak_wf H →
  ∃ h, merge_graphs G H = Ok h ∧ eg_wf h ∧ (∀ x, ev h x ↔ vtx G x ∨ vtx H x) ∧
    (∀ x y, ea h x y ↔ adj G x y ∨ adj H x y).
Proof.
  intros HG HH. unfold merge_graphs.
  destruct (edges_weak G HG) as (es & -> & Hes). cbn [mbind res_bind].
  destruct (edges_weak H HH) as (es' & -> & Hes'). cbn [mbind res_bind].
  pose proof (adds_seq _ _ _ _ _ _ (adds_add_vertices (vertices G)) (adds_add_vertices (vertices H))) as HA.
  pose proof (adds_seq _ _ _ _ _ _ HA (adds_all_edges G es HG Hes)) as HB.
  pose proof (adds_seq _ _ _ _ _ _ HB (adds_all_edges H es' HH Hes')) as HC.
  apply adds_new in HC as (h & Hok & Hh & HV & HE). exists h. split_and!; [|done| |].
  - rewrite <- Hok. cbn [mbind res_bind]. destruct (eg_add_edges _ es) as [r| |]; done.
  - intros x. rewrite HV, (ww_vertices _ HG), (ww_vertices _ HH). split; [|naive_solver].
    intros [[[?|?]|(y & ?)]|(y & ?)]; [auto|auto|left; by eapply (ww_adj_vtx _ HG)|right; by eapply (ww_adj_vtx _ HH)].
  - intros x y. rewrite HE. naive_solver.
Qed.

Lemma intersect_spec G H : weak_wf G → weak_wf H →
  ∃ h, intersect_graphs G H = Ok h ∧ eg_wf h ∧ (∀ x, ev h x ↔ vtx G x ∧ vtx H x) ∧
    (∀ x y, ea h x y ↔ adj G x y ∧ adj H x y).
Proof.
  intros HG HH. unfold intersect_graphs.
  destruct (edges_weak G HG) as (es & -> & Hes). cbn [mbind res_bind].
  pose proof (adds_seq _ _ _ _ _ _ (adds_add_vertices (filter (λ u, contains H u = true) (vertices G)))
     (adds_edges_of G (λ e : N * N, adjacent H e.1 e.2 = true) es HG Hes
        (λ u v, conj (ww_adj_sym _ HH u v) (ww_adj_sym _ HH v u)))) as HA.
  apply adds_new in HA as (h & Hok & Hh & HV & HE). exists h. split_and!; [exact Hok|done| |].
  - intros x. rewrite HV, elem_of_list_filter, (ww_vertices _ HG). split; [|unfold vtx; naive_solver].
    intros [[? ?]|(y & ? & Hy)]; [done|]. split; [by eapply (ww_adj_vtx _ HG)|by apply (ww_adj_vtx _ HH x y)].
  - intros x y. rewrite HE. unfold adj. naive_solver.
Qed.

(** ** compare_subgraph *)
Definition is_subgraph (G H : graph) : Prop :=
  (∀ v, vtx G v → vtx H v) ∧ (∀ u v, adj G u v → adj H u v).

Lemma compare_spec G H : weak_wf G → weak_wf H →
  ∃ r, compare_subgraph G H = Ok r ∧
  match r with
  | RelEq => is_subgraph G H ∧ is_subgraph H G
  | RelSub => is_subgraph G H ∧ ¬ is_subgraph H G
  | RelSup => ¬ is_subgraph G H ∧ is_subgraph H G
  | RelIncomp => ¬ is_subgraph G H ∧ ¬ is_subgraph H G
  end.
Proof.
  intros HG HH. unfold compare_subgraph.
  assert (∀ A B es, weak_wf A → weak_wf B → (∀ u v, (u, v) ∈ es ↔ (u <= v)%N ∧ adj A u v) →
    forallb (contains B) (vertices A) && forallb (λ e : N * N, adjacent B e.1 e.2) es = true ↔ is_subgraph A B) as Hs.
  { intros A B es HA HB Hes. rewrite andb_true_iff, !forallb_forall. unfold is_subgraph. split.
    - intros [H1 H2]. split.
      + intros v Hv. apply H1. by apply elem_of_list_In, (ww_vertices _ HA).
      + intros u v Huv. destruct (N.le_gt_cases u v).
        * apply (H2 (u, v)). by apply elem_of_list_In, Hes.
        * apply (ww_adj_sym _ HB). apply (H2 (v, u)). apply elem_of_list_In, Hes. split; [lia|]. by apply (ww_adj_sym _ HA).
    - intros [H1 H2]. split.
      + intros v Hv%elem_of_list_In%(ww_vertices _ HA). by apply H1.
      + intros [u v] [_ Huv]%elem_of_list_In%Hes. by apply H2. }
  destruct (edges_weak G HG) as (es & -> & Hes). cbn [mbind res_bind].
  destruct (edges_weak H HH) as (es' & -> & Hes'). cbn [mbind res_bind].
  eexists; split; [done|].
  specialize (Hs G H es HG HH Hes) as Hs1. specialize (Hs H G es' HH HG Hes') as Hs2.
  destruct (forallb (contains H) _ && _), (forallb (contains G) _ && _);
    (split; [first [by apply Hs1|by intros ?%Hs1]|first [by apply Hs2|by intros ?%Hs2]]).
Qed.

(** ** Products *)
Lemma elem_of_concat {A} (x : A) ls : x ∈ concat ls ↔ ∃ l, l ∈ ls ∧ x ∈ l.
Proof.
  induction ls as [|l ls IH]; cbn; [set_solver|]. rewrite elem_of_app, IH. set_solver.
Qed.
Lemma foldl_nested {A B S} (f : A → S → B → S) (l1 : list A) (l2 : list B) s :
  foldl (λ s a, foldl (f a) s l2) s l1 =
  foldl (λ s (p : A * B), f p.1 s p.2) s (concat ((λ a, pair a <$> l2) <$> l1)).
Proof.
  revert s. induction l1 as [|a l1 IH]; intros s; cbn; [done|]. rewrite foldl_app, IH. f_equal.
  clear. revert s. induction l2 as [|b l2 IH]; intros s; cbn; [done|]. apply IH.
Qed.

Definition prod_list (G H : graph) : list (N * N) :=
  concat ((λ u, pair u <$> vertices H) <$> vertices G).
Lemma elem_of_prod_list G H p : weak_wf G → weak_wf H → p ∈ prod_list G H ↔ vtx G p.1 ∧ vtx H p.2.
Proof.
  intros HG HH. destruct p as [u v]. unfold prod_list. rewrite elem_of_concat. cbn. split.
  - intros (L & (u' & -> & Hu)%elem_of_list_fmap & (v' & [= -> ->] & Hv)%elem_of_list_fmap).
    by rewrite (ww_vertices _ HG) in Hu; rewrite (ww_vertices _ HH) in Hv.
  - intros [Hu Hv]. exists (pair u <$> vertices H). split.
    + apply elem_of_list_fmap. exists u. split; [done|]. by apply (ww_vertices _ HG).
    + apply elem_of_list_fmap. exists v. split; [done|]. by apply (ww_vertices _ HH).
Qed.
Lemma NoDup_prod_aux (l1 l2 : list N) : NoDup l1 → NoDup l2 → NoDup (concat ((λ u, pair u <$> l2) <$> l1)).
Proof.
  intros H1 H2. induction l1 as [|u l1 IH]; cbn; [constructor|]. apply NoDup_cons in H1 as [Hu H1].
  apply NoDup_app. split_and!; [by apply NoDup_fmap_2; [apply _|]| |by apply IH].
  intros [a b] (b' & [= -> ->] & _)%elem_of_list_fmap Hin. apply elem_of_concat in Hin as (L & (u' & -> & Hu')%elem_of_list_fmap & Hin).
  apply elem_of_list_fmap in Hin as (b'' & [= -> ->] & _). done.
Qed.
Lemma length_prod_aux (l1 l2 : list N) : length (concat ((λ u, pair u <$> l2) <$> l1)) = length l1 * length l2.
Proof. induction l1 as [|u l1 IH]; cbn; [done|]. rewrite app_length, fmap_length, IH. done. Qed.

Lemma product_ids_spec G H : weak_wf G → weak_wf H →
  (N.of_nat (num_vertices G * num_vertices H) <= 4294967296)%N →
  let ids := product_ids G H in
  (∀ p, is_Some (ids.1.1 !! p) ↔ vtx G p.1 ∧ vtx H p.2) ∧
  (∀ p x, ids.1.1 !! p = Some x ↔ ids.1.2 !! x = Some p).
Proof.
  intros HG HH Hsz ids.
  assert (NoDup (prod_list G H)) as Hnd by (apply NoDup_prod_aux; [apply HG|apply HH]).
  assert (N.of_nat (length (prod_list G H)) <= 4294967296)%N as Hlen.
  { unfold prod_list. rewrite length_prod_aux, <- (ww_num_vertices _ HG), <- (ww_num_vertices _ HH). done. }
  assert (ids = foldl (λ s p, (<[p := s.2]> s.1.1, <[s.2 := p]> s.1.2, u32 (s.2 + 1)))
     (∅ : gmap (N * N) N, ∅ : gmap N (N * N), 0%N) (prod_list G H)) as ->.
  { unfold ids, product_ids, prod_list.
    rewrite (foldl_nested (λ u s v, (<[(u, v) := s.2]> s.1.1, <[s.2 := (u, v)]> s.1.2, u32 (s.2 + 1)))).
    generalize (concat ((λ u, pair u <$> vertices H) <$> vertices G)).
    generalize (∅ : gmap (N * N) N, ∅ : gmap N (N * N), 0%N). clear. intros s l. revert s.
    induction l as [|[a b] l IH]; intros s; [done|]. cbn [foldl]. by rewrite IH. }
  setoid_rewrite <- (elem_of_prod_list G H _ HG HH).
  revert Hnd Hlen. generalize (prod_list G H) as l. clear. intros l.
  enough (NoDup l → (N.of_nat (length l) <= 4294967296)%N →
    let s := foldl (λ s p, (<[p := s.2]> s.1.1, <[s.2 := p]> s.1.2, u32 (s.2 + 1)))
     (∅ : gmap (N * N) N, ∅ : gmap N (N * N), 0%N) l in
    ((N.of_nat (length l) < 4294967296)%N → s.2 = N.of_nat (length l)) ∧
    (∀ p x, s.1.1 !! p = Some x ↔ ∃ i, l !! i = Some p ∧ x = N.of_nat i) ∧
    (∀ p x, s.1.2 !! x = Some p ↔ ∃ i, l !! i = Some p ∧ x = N.of_nat i)) as HH.
  { intros Hnd Hlen. destruct (HH Hnd Hlen) as (_ & H1 & H2). split.
    - intros p. rewrite elem_of_list_lookup. split.
      + intros [x (i & ? & _)%H1]. eauto.
      + intros [i Hi]. exists (N.of_nat i). apply H1. eauto.
    - intros p x. by rewrite H1, H2. }
  induction l as [|p l IH] using rev_ind; intros Hnd Hlen; [cbn|].
  { split_and!; [done| |]; intros p x; rewrite lookup_empty; split; [done|naive_solver|done|naive_solver]. }
  rewrite app_length in Hlen; cbn in Hlen.
  apply NoDup_app in Hnd as (Hnd & Hp & _). destruct (IH Hnd) as (Hs & H1 & H2); [lia|].
  cbv zeta. rewrite foldl_app. cbn [foldl].
  set (s := foldl _ _ l) in *. clearbody s. rewrite Hs in * by lia. cbn.
  assert (p ∉ l) as Hpl by (intros ?; by apply (Hp p); [|set_solver]).
  assert (∀ q i, (l ++ [p]) !! i = Some q ↔ l !! i = Some q ∨ (q = p ∧ i = length l)) as Hlk.
  { intros q i. rewrite lookup_app_Some, list_lookup_singleton_Some. split.
    - intros [?|(? & ? & ->)]; [by left|]. right. split; [done|lia].
    - intros [?|[-> ->]]; [by left|]. right. split; [lia|]. split; [lia|done]. }
  split_and!.
  - rewrite app_length. cbn. intros Hl. rewrite u32_small by lia. lia.
  - intros q x. destruct (decide (q = p)) as [->|Hne].
    + rewrite lookup_insert. setoid_rewrite Hlk. split.
      * intros [= <-]. exists (length l). auto.
      * intros (i & [Hi|[_ ->]] & ->); [|done]. apply elem_of_list_lookup_2 in Hi. done.
    + rewrite lookup_insert_ne, H1 by done. setoid_rewrite Hlk. naive_solver.
  - intros q x. destruct (decide (x = N.of_nat (length l))) as [->|Hne].
    + rewrite lookup_insert. setoid_rewrite Hlk. split.
      * intros [= <-]. exists (length l). auto.
      * intros (i & [Hi|[-> ->]] & Hx); [|done]. apply lookup_lt_Some in Hi. lia.
    + rewrite lookup_insert_ne, H2 by done. setoid_rewrite Hlk. split; [naive_solver|].
      intros (i & [Hi|[-> ->]] & ->); [eauto|done].
Qed.

(** Adding edges from [x] to the ids of a list of keys. *)
Lemma adds_keys (m : gmap (N * N) N) (f : N → N * N) x L :
  (∀ w, w ∈ L → is_Some (m !! f w)) →
  adds (fold_res (λ h w, y ← unwrap (m !! f w); r ← eg_add_edge h x y; Ok r.1) L)
    (λ a, ∃ w, w ∈ L ∧ ∃ y, m !! f w = Some y ∧ (a = x ∨ a = y))
    (λ a b, ∃ w, w ∈ L ∧ ∃ y, m !! f w = Some y ∧ ((a = x ∧ b = y) ∨ (a = y ∧ b = x))).
Proof.
  intros HL. apply adds_fold. intros w Hw. destruct (HL w Hw) as [y Hy].
  eapply adds_ext; [apply (adds_edge x y)| | |].
  - intros h. cbv beta. rewrite Hy. done.
  - intros a. cbv beta. naive_solver.
  - intros a b. cbv beta. naive_solver.
Qed.

Lemma product_core (ids : gmap (N * N) N * gmap N (N * N) * N) (f : editgraph → N * N * N → res editgraph)
    (R : N * N → N * N → Prop) :
  (∀ p x, ids.1.1 !! p = Some x ↔ ids.1.2 !! x = Some p) →
  (∀ p q, R p q → R q p) → (∀ p q, R p q → is_Some (ids.1.1 !! p)) →
  (∀ p x, ids.1.1 !! p = Some x → adds (λ h, f h (p, x))
     (λ a, ∃ q y, R p q ∧ ids.1.1 !! q = Some y ∧ (a = x ∨ a = y))
     (λ a b, ∃ q y, R p q ∧ ids.1.1 !! q = Some y ∧ ((a = x ∧ b = y) ∨ (a = y ∧ b = x)))) →
  ∃ h, fold_res f (map_iter 0 ids.1.1) eg_new = Ok h ∧ eg_wf h ∧
    (∀ x, ev h x ↔ ∃ p q, ids.1.2 !! x = Some p ∧ R p q) ∧
    (∀ x y, ea h x y ↔ ∃ p q, ids.1.2 !! x = Some p ∧ ids.1.2 !! y = Some q ∧ R p q).
Proof.
  intros Hinv Hsym Hdom Hf.
  assert (adds (fold_res f (map_iter 0 ids.1.1))
    (λ a, ∃ kx, kx ∈ map_iter 0 ids.1.1 ∧ ∃ q y, R kx.1 q ∧ ids.1.1 !! q = Some y ∧ (a = kx.2 ∨ a = y))
    (λ a b, ∃ kx, kx ∈ map_iter 0 ids.1.1 ∧ ∃ q y, R kx.1 q ∧ ids.1.1 !! q = Some y ∧ ((a = kx.2 ∧ b = y) ∨ (a = y ∧ b = kx.2)))) as HA.
  { apply adds_fold. intros [p x] Hp%elem_of_map_iter. by apply Hf. }
  apply adds_new in HA as (h & Hok & Hh & HV & HE). exists h. split_and!; [done|done| |].
  - intros a. rewrite HV. split.
    + intros ([p x] & Hp%elem_of_map_iter & q & y & HR & Hq & [->| ->]); cbn in *.
      * exists p, q. split; [by apply Hinv|done].
      * exists q, p. split; [by apply Hinv|by apply Hsym].
    + intros (p & q & Hp%Hinv & HR). destruct (Hdom q p) as [y Hy]; [by apply Hsym|].
      exists (p, a). split; [by apply elem_of_map_iter|]. exists q, y. auto.
  - intros a b. rewrite HE. split.
    + intros ([p x] & Hp%elem_of_map_iter & q & y & HR & Hq & [[-> ->]|[-> ->]]); cbn in *.
      * exists p, q. split_and!; [by apply Hinv|by apply Hinv|done].
      * exists q, p. split_and!; [by apply Hinv|by apply Hinv|by apply Hsym].
    + intros (p & q & Hp%Hinv & Hq%Hinv & HR).
      exists (p, a). split; [by apply elem_of_map_iter|]. exists q, b. auto.
Qed.

Definition cart_adj (G H : graph) (p q : N * N) : Prop :=
  vtx G p.1 ∧ vtx H p.2 ∧ ((p.1 = q.1 ∧ adj H p.2 q.2) ∨ (p.2 = q.2 ∧ adj G p.1 q.1)).
Definition lex_adj (G H : graph) (p q : N * N) : Prop :=
  vtx G p.1 ∧ vtx H p.2 ∧ vtx G q.1 ∧ (adj H p.2 q.2 ∨ (p.2 = q.2 ∧ adj G p.1 q.1)).

Lemma cartesian_spec G H : weak_wf G → weak_wf H →
  (N.of_nat (num_vertices G * num_vertices H) <= 4294967296)%N →
  ∃ h inv, cartesian_product G H = Ok (h, inv) ∧ eg_wf h ∧
    (∀ p, (∃ x, inv !! x = Some p) ↔ vtx G p.1 ∧ vtx H p.2) ∧
    (∀ x y p, inv !! x = Some p → inv !! y = Some p → x = y) ∧
    (∀ x, ev h x ↔ ∃ p q, inv !! x = Some p ∧ cart_adj G H p q) ∧
    (∀ x y, ea h x y ↔ ∃ p q, inv !! x = Some p ∧ inv !! y = Some q ∧ cart_adj G H p q).
Proof.
  intros HG HH Hsz. unfold cartesian_product.
  destruct (product_ids_spec G H HG HH Hsz) as [Hdom Hinv]. set (ids := product_ids G H) in *. clearbody ids. cbv zeta.
  destruct (product_core ids (λ h (kx : N * N * N),
        let '(u, v, x) := kx in
        Nv ← neighbours H v;
        h ← fold_res (λ h w, y ← unwrap (ids.1.1 !! (u, w)); r ← eg_add_edge h x y; Ok r.1) Nv h;
        Nu ← neighbours G u;
        fold_res (λ h w, y ← unwrap (ids.1.1 !! (w, v)); r ← eg_add_edge h x y; Ok r.1) Nu h)
     (cart_adj G H) Hinv) as (h & -> & Hh & HV & HE).
  - intros [a b] [c d] (? & ? & [[? ?]|[? ?]]); cbn in *; subst; (split_and!; cbn; [eauto using ww_adj_vtx, ww_adj_sym..|]); auto using ww_adj_sym.
  - intros p q (? & ? & _). by apply Hdom.
  - intros [u v] x Hp. assert (vtx G u ∧ vtx H v) as [Hu Hv] by (apply (Hdom (u, v)); eauto).
    destruct (ww_neighbours _ HH v Hv) as (Nv & Env & HNv).
    destruct (ww_neighbours _ HG u Hu) as (Nu & Enu & HNu).
    eapply adds_ext.
    + apply (adds_seq _ _ _ _ _ _ (adds_keys ids.1.1 (λ w, (u, w)) x Nv
         ltac:(intros w Hw%HNv; apply Hdom; cbn; eauto using ww_adj_vtx, ww_adj_sym))
         (adds_keys ids.1.1 (λ w, (w, v)) x Nu
         ltac:(intros w Hw%HNu; apply Hdom; cbn; eauto using ww_adj_vtx, ww_adj_sym))).
    + intros h. cbv beta iota. rewrite Env, Enu. done.
    + intros a. cbv beta. unfold cart_adj. cbn. setoid_rewrite HNv. setoid_rewrite HNu. split.
      * intros [(w & Hw & y & Hy & Ha)|(w & Hw & y & Hy & Ha)]; eexists (_, _), y; (split; [|split; [exact Hy|exact Ha]]); cbn; auto 10.
      * intros ([c d] & y & (_ & _ & [[Hc Hd]|[Hc Hd]]) & Hy & Ha); cbn in *; subst; eauto 10.
    + intros a b. cbv beta. unfold cart_adj. cbn. setoid_rewrite HNv. setoid_rewrite HNu. split.
      * intros [(w & Hw & y & Hy & Ha)|(w & Hw & y & Hy & Ha)]; eexists (_, _), y; (split; [|split; [exact Hy|exact Ha]]); cbn; auto 10.
      * intros ([c d] & y & (_ & _ & [[Hc Hd]|[Hc Hd]]) & Hy & Ha); cbn in *; subst; eauto 10.
  - cbn [mbind res_bind]. exists h, ids.1.2. split_and!; [done|done| | |done|done].
    + intros p. rewrite <- Hdom. split; [intros [x ?%Hinv]; eauto|intros [x ?%Hinv]; eauto].
    + intros x y p Hx%Hinv Hy%Hinv. congruence.
Qed.

Lemma lexicographic_spec G H : weak_wf G → weak_wf H →
  (N.of_nat (num_vertices G * num_vertices H) <= 4294967296)%N →
  ∃ h inv, lexicographic_product G H = Ok (h, inv) ∧ eg_wf h ∧
    (∀ p, (∃ x, inv !! x = Some p) ↔ vtx G p.1 ∧ vtx H p.2) ∧
    (∀ x y p, inv !! x = Some p → inv !! y = Some p → x = y) ∧
    (∀ x, ev h x ↔ ∃ p q, inv !! x = Some p ∧ lex_adj G H p q) ∧
    (∀ x y, ea h x y ↔ ∃ p q, inv !! x = Some p ∧ inv !! y = Some q ∧ lex_adj G H p q).
Proof.
  intros HG HH Hsz. unfold lexicographic_product.
  destruct (product_ids_spec G H HG HH Hsz) as [Hdom Hinv]. set (ids := product_ids G H) in *. clearbody ids. cbv zeta.
  destruct (product_core ids (λ h (kx : N * N * N),
        let '(u, v, x) := kx in
        Nu ← neighbours G u;
        h ← fold_res (λ h w, y ← unwrap (ids.1.1 !! (w, v)); r ← eg_add_edge h x y; Ok r.1) Nu h;
        Nv ← neighbours H v;
        fold_res (λ h w,
          fold_res (λ h uu, y ← unwrap (ids.1.1 !! (uu, w)); r ← eg_add_edge h x y; Ok r.1)
            (vertices G) h) Nv h)
     (lex_adj G H) Hinv) as (h & -> & Hh & HV & HE).
  - intros [a b] [c d] (? & ? & ? & [?|[? ?]]); cbn in *; subst; (split_and!; cbn; [eauto using ww_adj_vtx, ww_adj_sym..|]); auto using ww_adj_sym.
  - intros p q (? & ? & _). by apply Hdom.
  - intros [u v] x Hp. assert (vtx G u ∧ vtx H v) as [Hu Hv] by (apply (Hdom (u, v)); eauto).
    destruct (ww_neighbours _ HH v Hv) as (Nv & Env & HNv).
    destruct (ww_neighbours _ HG u Hu) as (Nu & Enu & HNu).
    eapply adds_ext.
    + apply (adds_seq _ _ _ _ _ _ (adds_keys ids.1.1 (λ w, (w, v)) x Nu
         ltac:(intros w Hw%HNu; apply Hdom; cbn; eauto using ww_adj_vtx, ww_adj_sym))
         (adds_fold (λ h w,
          fold_res (λ h uu, y ← unwrap (ids.1.1 !! (uu, w)); r ← eg_add_edge h x y; Ok r.1)
            (vertices G) h) Nv _ _ (λ w Hw, adds_keys ids.1.1 (λ uu, (uu, w)) x (vertices G)
            ltac:(intros uu Huu%(ww_vertices _ HG); apply HNv in Hw; apply Hdom; cbn; eauto using ww_adj_vtx, ww_adj_sym)))).
    + intros h. cbv beta iota. rewrite Env, Enu. done.
    + intros a. cbv beta. unfold lex_adj. cbn. setoid_rewrite HNv. setoid_rewrite HNu. setoid_rewrite (ww_vertices _ HG). split.
      * intros [(w & Hw & y & Hy & Ha)|(w & Hw & uu & Huu & y & Hy & Ha)]; eexists (_, _), y;
          (split; [|split; [exact Hy|exact Ha]]); cbn; split_and!; eauto using ww_adj_vtx, ww_adj_sym.
      * intros ([c d] & y & (_ & _ & ? & [Hd|[Hc Hd]]) & Hy & Ha); cbn in *; subst; eauto 15.
    + intros a b. cbv beta. unfold lex_adj. cbn. setoid_rewrite HNv. setoid_rewrite HNu. setoid_rewrite (ww_vertices _ HG). split.
      * intros [(w & Hw & y & Hy & Ha)|(w & Hw & uu & Huu & y & Hy & Ha)]; eexists (_, _), y;
          (split; [|split; [exact Hy|exact Ha]]); cbn; split_and!; eauto using ww_adj_vtx, ww_adj_sym.
      * intros ([c d] & y & (_ & _ & ? & [Hd|[Hc Hd]]) & Hy & Ha); cbn in *; subst; eauto 15.
  - cbn [mbind res_bind]. exists h, ids.1.2. split_and!; [done|done| | |done|done].
    + intros p. rewrite <- Hdom. split; [intros [x ?%Hinv]; eauto|intros [x ?%Hinv]; eauto].
    + intros x y p Hx%Hinv Hy%Hinv. congruence.
Qed.

End with_iter.
