(** Proofs about the default methods of [trait Graph] for well-formed graphs, and
    about counting. *)
From Verif Require Import Base Spec M_Graph M_Iterators M_EditGraph S_Graph P_EditGraph P_EditGraph2.

(** ** Sums over lists *)
Lemma sum_map_app {A} (f : A → nat) l1 l2 : sum_map f (l1 ++ l2) = sum_map f l1 + sum_map f l2.
Proof. unfold sum_map. rewrite fmap_app. induction (f <$> l1); cbn in *; lia. Qed.

Lemma sum_map_plus {A} (f g : A → nat) l :
  sum_map (λ x, f x + g x) l = sum_map f l + sum_map g l.
Proof. unfold sum_map. induction l; cbn in *; lia. Qed.

Lemma sum_map_ext {A} (f g : A → nat) l :
  (∀ x, x ∈ l → f x = g x) → sum_map f l = sum_map g l.
Proof.
  unfold sum_map. induction l as [|x l IH]; intros Hx; cbn; [done|].
  rewrite (Hx x) by set_solver. rewrite IH; [done|]. intros y Hy. apply Hx. set_solver.
Qed.

Lemma sum_map_perm {A} (f : A → nat) l1 l2 : l1 ≡ₚ l2 → sum_map f l1 = sum_map f l2.
Proof. unfold sum_map. induction 1; cbn in *; lia. Qed.

Lemma sum_map_zero {A} (f : A → nat) l : (∀ x, x ∈ l → f x = 0) → sum_map f l = 0.
Proof.
  unfold sum_map. induction l as [|x l IH]; intros Hx; cbn; [done|].
  rewrite (Hx x) by set_solver. rewrite IH; [done|]. intros; apply Hx. set_solver.
Qed.

Lemma sum_map_ind `{EqDecision A} (a : A) l :
  NoDup l → sum_map (λ x, ind (a = x)) l = ind (a ∈ l).
Proof.
  unfold sum_map, ind. induction 1 as [|x l Hx Hl IH]; cbn.
  - rewrite decide_False by set_solver. done.
  - rewrite IH. destruct (decide (a = x)) as [->|].
    + rewrite (decide_True (P:=x ∈ x :: l)) by set_solver.
      by rewrite decide_False.
    + cbn. repeat case_decide; set_solver.
Qed.

Lemma sum_filter_size {A B} `{Countable A} `{Countable B} (f : A → B) (E : gset A) (l : list B) :
  NoDup l → (∀ e, e ∈ E → f e ∈ l) →
  sum_map (λ u, size (filter (λ e, f e = u) E)) l = size E.
Proof.
  intros Hl. induction E as [|e E He IH] using set_ind_L; intros HE.
  - rewrite size_empty. apply sum_map_zero. intros x _.
    apply size_empty_iff. intros e. rewrite elem_of_filter. set_solver.
  - rewrite (sum_map_ext _ (λ u, ind (f e = u) + size (filter (λ e, f e = u) E))).
    + rewrite sum_map_plus, IH, sum_map_ind by set_solver.
      rewrite size_union, size_singleton by set_solver.
      unfold ind. rewrite decide_True; [done|]. apply HE. set_solver.
    + intros u _. rewrite size_filter_insert by done. done.
Qed.

Lemma a_handshake G l :
  a_wf G → NoDup l → (∀ u, u ∈ l ↔ u ∈ av G) → sum_map (a_degree G) l = 2 * size (ae G).
Proof.
  intros Hwf Hl HV. unfold a_degree. rewrite sum_map_plus.
  rewrite !sum_filter_size; [lia|done| |done|]; intros e He; apply HV; by apply Hwf.
Qed.

(** ** Neighbourhoods *)
Section with_iter.
Context `{HI : HashIter}.

Lemma fold_union_spec (G : graph) (X : list N) (acc : gset N) :
  graph_wf G → (∀ v, v ∈ X → vtx G v) →
  ∃ S, fold_res (λ acc v, N ← neighbours G v; Ok (acc ∪ list_to_set N)) X acc = Ok S ∧
       ∀ u, u ∈ S ↔ u ∈ acc ∨ ∃ v, v ∈ X ∧ adj G v u.
Proof.
  intros Hwf. revert acc. induction X as [|v X IH]; intros acc HX; cbn.
  - eexists; split; [done|]. set_solver.
  - destruct (wf_neighbours _ Hwf v) as (l & -> & _ & Hl & _); [apply HX; set_solver|]. cbn.
    destruct (IH (acc ∪ list_to_set l)) as (S & -> & HS); [set_solver|].
    eexists; split; [done|]. intros u. rewrite HS, elem_of_union, elem_of_list_to_set, Hl.
    split.
    + intros [[?|?]|(w & ? & ?)]; [by left| |]; right; eauto using elem_of_list_here, elem_of_list_further.
    + intros [?|(w & [->|Hw]%elem_of_cons & ?)]; eauto.
Qed.

Lemma neighbourhood_spec (G : graph) (X : list N) :
  graph_wf G → (∀ v, v ∈ X → vtx G v) →
  ∃ S, neighbourhood G X = Ok S ∧ ∀ u, u ∈ S ↔ u ∉ X ∧ ∃ v, v ∈ X ∧ adj G v u.
Proof.
  intros Hwf HX. unfold neighbourhood, collect_set.
  destruct (fold_union_spec G (hash_iter 0 (list_to_set X : gset N)) ∅ Hwf) as (S & -> & HS).
  { intros v. rewrite elem_of_hash_iter, elem_of_list_to_set. apply HX. }
  cbn. eexists; split; [done|]. intros u. rewrite elem_of_filter, HS, elem_of_list_to_set.
  setoid_rewrite elem_of_hash_iter. setoid_rewrite elem_of_list_to_set. set_solver.
Qed.

Lemma closed_neighbourhood_spec (G : graph) (X : list N) :
  graph_wf G → (∀ v, v ∈ X → vtx G v) →
  ∃ S, closed_neighbourhood G X = Ok S ∧ ∀ u, u ∈ S ↔ u ∈ X ∨ ∃ v, v ∈ X ∧ adj G v u.
Proof.
  intros Hwf. unfold closed_neighbourhood.
  enough (∀ acc : gset N, (∀ v, v ∈ X → vtx G v) →
    ∃ S, fold_res (λ acc v, N ← neighbours G v; Ok ({[v]} ∪ (acc ∪ list_to_set N))) X acc = Ok S ∧
     ∀ u, u ∈ S ↔ u ∈ acc ∨ u ∈ X ∨ ∃ v, v ∈ X ∧ adj G v u) as HH.
  { intros HX. destruct (HH ∅ HX) as (S & -> & HS). eexists; split; [done|].
    intros u. rewrite HS. set_solver. }
  induction X as [|v X IH]; intros acc HX; cbn.
  - eexists; split; [done|]. set_solver.
  - destruct (wf_neighbours _ Hwf v) as (l & -> & _ & Hl & _); [apply HX; set_solver|]. cbn.
    destruct (IH ({[v]} ∪ (acc ∪ list_to_set l))) as (S & -> & HS); [set_solver|].
    eexists; split; [done|]. intros u.
    rewrite HS, !elem_of_union, elem_of_list_to_set, Hl, elem_of_singleton, elem_of_cons.
    split.
    + intros [[->|[?|?]]|[?|(w & ? & ?)]]; eauto; right; right;
        eauto using elem_of_list_here, elem_of_list_further.
    + intros [?|[[?|?]|(w & [->|Hw]%elem_of_cons & ?)]]; eauto 10.
Qed.

(** ** Walk lemmas *)
Lemma within_0 {A} (R : A → A → Prop) x y : within R 0 x y ↔ x = y.
Proof.
  split.
  - intros (n & Hn & H). assert (n = 0) as -> by lia. by inversion H.
  - intros ->. exists 0. split; [done|constructor].
Qed.

Lemma within_S {A} (R : A → A → Prop) r x y :
  within R (S r) x y ↔ within R r x y ∨ ∃ z, within R r x z ∧ R z y.
Proof.
  split.
  - intros (n & Hn & H). destruct (decide (n ≤ r)); [left; by exists n|].
    assert (n = S r) as -> by lia.
    apply nsteps_inv_r in H as (z & H1 & H2).
    right. exists z. split; [by exists r|done].
  - intros [(n & Hn & H)|(z & (n & Hn & H) & Hz)].
    + exists n. split; [lia|done].
    + exists (S n). split; [lia|]. by eapply nsteps_r.
Qed.

Lemma within_S_l {A} (R : A → A → Prop) r x y :
  within R (S r) x y ↔ x = y ∨ ∃ z, R x z ∧ within R r z y.
Proof.
  split.
  - intros (n & Hn & H). inversion H as [|n' ? z ? H1 H2]; subst; [by left|].
    right. exists z. split; [done|]. exists n'. split; [lia|done].
  - intros [->|(z & Hz & (n & Hn & H))].
    + exists 0. split; [lia|constructor].
    + exists (S n). split; [lia|]. by econstructor.
Qed.

Lemma within_mono {A} (R : A → A → Prop) r r' x y : r ≤ r' → within R r x y → within R r' x y.
Proof. intros Hr (n & Hn & H). exists n. split; [lia|done]. Qed.

Lemma nsteps_sym {A} (R : A → A → Prop) n x y :
  (∀ a b, R a b → R b a) → nsteps R n x y → nsteps R n y x.
Proof.
  intros Hs. revert x; induction n as [|n IH]; intros x H.
  - inversion H; subst. constructor.
  - inversion H as [|n' ? z ? H1 H2]; subst. eapply nsteps_r; [by apply IH|auto].
Qed.

Lemma within_sym {A} (R : A → A → Prop) r x y :
  (∀ a b, R a b → R b a) → within R r x y → within R r y x.
Proof. intros Hs (n & Hn & H). exists n. split; [done|by apply nsteps_sym]. Qed.

Lemma within_trans {A} (R : A → A → Prop) r s x y z :
  within R r x y → within R s y z → within R (r + s) x z.
Proof.
  intros (n & Hn & H) (m & Hm & H'). exists (n + m). split; [lia|].
  by eapply nsteps_trans.
Qed.

Lemma nsteps_vtx G n u v : graph_wf G → vtx G u → nsteps (adj G) n u v → vtx G v.
Proof.
  intros Hwf Hu H. destruct n as [|n]; [by inversion H; subst|].
  apply nsteps_inv_r in H as (z & _ & H).
  eapply wf_adj_vtx; [done|]. by apply wf_adj_sym.
Qed.

Lemma r_neighbourhood_spec (G : graph) (X : list N) r :
  graph_wf G → (∀ v, v ∈ X → vtx G v) →
  ∃ S, r_neighbourhood G X r = Ok S ∧ ∀ u, u ∈ S ↔ ∃ x, x ∈ X ∧ within (adj G) r x u.
Proof.
  intros Hwf HX. unfold r_neighbourhood.
  enough (∀ r k acc,
     (∀ u, u ∈ acc ↔ ∃ x, x ∈ X ∧ within (adj G) k x u) →
     ∃ S, r_neighbourhood_loop G r acc = Ok S ∧
          ∀ u, u ∈ S ↔ ∃ x, x ∈ X ∧ within (adj G) (k + r) x u) as HH.
  { apply (HH r 0). intros u. setoid_rewrite within_0.
    rewrite elem_of_list_to_set. naive_solver. }
  clear r. induction r as [|r IH]; intros k acc Hacc; cbn.
  - exists acc. split; [done|]. intros u. by rewrite Hacc, Nat.add_0_r.
  - destruct (closed_neighbourhood_spec G (hash_iter r acc) Hwf) as (S & -> & HS).
    { intros v. rewrite elem_of_hash_iter, Hacc. intros (x & Hx & (n & _ & Hn)).
      eapply nsteps_vtx; [done|by apply HX|done]. }
    cbn. destruct (IH (k + 1) (acc ∪ S)) as (S' & -> & HS').
    { intros u. rewrite elem_of_union, HS. setoid_rewrite elem_of_hash_iter.
      setoid_rewrite Hacc. replace (k + 1) with (Datatypes.S k) by lia.
      setoid_rewrite within_S. naive_solver. }
    exists S'. split; [done|]. intros u. rewrite HS'.
    by replace (k + 1 + r) with (k + Datatypes.S r) by lia.
Qed.

(** ** Degree map *)
Lemma foldl_insert_lookup {A} (f : N → A) (l : list N) (m : gmap N A) k :
  foldl (λ m v, <[v := f v]> m) m l !! k = if decide (k ∈ l) then Some (f k) else m !! k.
Proof.
  revert m. induction l as [|x l IH]; intros m; cbn.
  - by rewrite decide_False by set_solver.
  - rewrite IH. destruct (decide (k = x)) as [->|].
    + rewrite (decide_True (P:=x ∈ x :: l)) by set_solver.
      case_decide; [done|]. by rewrite lookup_insert.
    + rewrite lookup_insert_ne by done. repeat case_decide; set_solver.
Qed.

Lemma degrees_spec G u :
  graph_wf G → degrees G !! u = if contains G u then Some (degree G u) else None.
Proof.
  intros Hwf. unfold degrees. rewrite foldl_insert_lookup, lookup_empty.
  pose proof (wf_vertices _ Hwf u) as Hu. unfold vtx in Hu.
  case_decide; destruct (contains G u); naive_solver.
Qed.

End with_iter.
