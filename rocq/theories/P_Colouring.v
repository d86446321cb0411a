(** Lemmas about the vertex-map utilities. *)
From Verif Require Import Base Spec M_Colouring.

Section with_iter.
Context `{HashIter}.

Lemma invert_fold {T} `{Countable T} (l : list (N * T)) : ∀ acc : gmap T (gset N),
  let r := foldl (λ res p, map_upd ∅ (λ X, {[p.1]} ∪ X) p.2 res) acc l in
  (∀ c u, u ∈ default ∅ (r !! c) ↔ u ∈ default ∅ (acc !! c) ∨ (u, c) ∈ l) ∧
  ((∀ c X, acc !! c = Some X → X ≠ ∅) → ∀ c X, r !! c = Some X → X ≠ ∅).
Proof.
  induction l as [|[v d] l IH]; intros acc; cbn [foldl fst snd].
  - cbn. split; [|auto]. intros c u. split; [auto|]. intros [?|Hn]; [done|]. by apply elem_of_nil in Hn.
  - destruct (IH (map_upd ∅ (λ X, {[v]} ∪ X) d acc)) as [H1 H2]. split.
    + intros c u. rewrite H1, elem_of_cons. unfold map_upd. destruct (decide (c = d)) as [->|Hne].
      * rewrite lookup_insert. cbn. rewrite elem_of_union, elem_of_singleton. naive_solver.
      * rewrite lookup_insert_ne by done. naive_solver.
    + intros Hacc. apply H2. intros c X. unfold map_upd. destruct (decide (c = d)) as [->|Hne].
      * rewrite lookup_insert. intros [= <-]. set_solver.
      * rewrite lookup_insert_ne by done. apply Hacc.
Qed.

Lemma vm_invert_spec {T} `{Countable T} (m : gmap N T) c X :
  vm_invert m !! c = Some X ↔ X ≠ ∅ ∧ ∀ u, u ∈ X ↔ m !! u = Some c.
Proof.
  destruct (invert_fold (map_iter 0 m) ∅) as [H1 H2]. cbn zeta in H1, H2. fold (vm_invert m) in H1, H2.
  assert (∀ c u, u ∈ default ∅ (vm_invert m !! c) ↔ m !! u = Some c) as H3.
  { intros c' u. rewrite H1, lookup_empty, elem_of_map_iter. cbn. set_solver. }
  split.
  - intros Hc. split.
    + apply (H2 ltac:(intros ??; by rewrite lookup_empty) c X Hc).
    + intros u. by rewrite <- H3, Hc.
  - intros [Hne Hu]. destruct (vm_invert m !! c) as [Y|] eqn:E.
    + f_equal. apply set_eq. intros u. rewrite Hu, <- H3, E. done.
    + exfalso. apply set_choose_L in Hne as [u Hx]. apply Hu, H3 in Hx. rewrite E in Hx. cbn in Hx. set_solver.
Qed.

Lemma vm_majority_spec {T} `{Countable T} (m : gmap N T) :
  (m = ∅ ∧ vm_majority_set m = Ok None) ∨
  (m ≠ ∅ ∧ ∃ X c, vm_majority_set m = Ok (Some (X, c)) ∧ vm_invert m !! c = Some X ∧
    ∀ c' X', vm_invert m !! c' = Some X' → size X' ≤ size X).
Proof.
  unfold vm_majority_set. case_bool_decide as Hm; [by left|]. right. split; [done|].
  set (R := @larger T).
  assert (Total R) as HT. { intros p q. unfold R, larger. lia. }
  assert (Transitive R) as HTr. { intros p q s. unfold R, larger. lia. }
  set (l := map_iter 1 (vm_invert m)).
  pose proof (merge_sort_Permutation R l) as Hp. pose proof (StronglySorted_merge_sort R l) as Hs.
  destruct (merge_sort R l) as [|[c X] l'] eqn:E.
  - exfalso. apply map_choose in Hm as (u & c & Hu).
    assert (∃ X, vm_invert m !! c = Some X) as [X HX].
    { exists (dom (filter (λ p : N * T, p.2 = c) m)). apply vm_invert_spec. split.
      - intros He. assert (u ∈ dom (filter (λ p : N * T, p.2 = c) m)) as Hin; [|rewrite He in Hin; set_solver].
        apply elem_of_dom. exists c. by apply map_filter_lookup_Some.
      - intros v. rewrite elem_of_dom. split.
        + intros [c' Hv]. apply map_filter_lookup_Some in Hv as [Hv Hc]. cbn in Hc. by subst.
        + intros Hv. exists c. by apply map_filter_lookup_Some. }
    apply (elem_of_map_iter 1) in HX. unfold l in Hp. rewrite <- Hp in HX. by apply elem_of_nil in HX.
  - cbn. exists X, c. split; [done|]. split.
    + apply (elem_of_map_iter 1). fold l. rewrite <- Hp. by left.
    + intros c' X' Hc'. apply (elem_of_map_iter 1) in Hc'. fold l in Hc'. rewrite <- Hp in Hc'.
      apply elem_of_cons in Hc' as [[= -> ->]|Hin]; [done|].
      inversion Hs as [|? ? ? Hall]; subst. rewrite Forall_forall in Hall. apply (Hall (c', X') Hin).
Qed.

(** A total order given by [it_leb]. *)
Definition int_ty_ok {T} (I : int_ty T) : Prop :=
  (∀ a, it_leb I a a = true) ∧ (∀ a b, it_leb I a b = true ∨ it_leb I b a = true) ∧
  (∀ a b c, it_leb I a b = true → it_leb I b c = true → it_leb I a c = true).

Lemma list_max_fold {T} (I : int_ty T) (HI : int_ty_ok I) l : ∀ y,
  ∃ m, foldl (λ o x, match o with Some y => if it_leb I y x then Some x else Some y | None => Some x end) (Some y) l
       = Some m ∧ (m = y ∨ m ∈ l) ∧ it_leb I y m = true ∧ ∀ x, x ∈ l → it_leb I x m = true.
Proof.
  destruct HI as (Hr & Ht & Htr). induction l as [|x l IH]; intros y; cbn [foldl].
  - exists y. split_and!; [done|by left|done|]. intros x Hx. by apply elem_of_nil in Hx.
  - destruct (it_leb I y x) eqn:E.
    + destruct (IH x) as (m & -> & Hm & Hle & Hall). exists m. split_and!; [done| | |].
      * right. rewrite elem_of_cons. destruct Hm; auto.
      * by eapply Htr.
      * intros z [->|Hz]%elem_of_cons; auto.
    + destruct (IH y) as (m & -> & Hm & Hle & Hall). exists m. split_and!; [done| |done|].
      * destruct Hm; [by left|right; by apply elem_of_cons; right].
      * intros z [->|Hz]%elem_of_cons; [|auto]. destruct (Ht y x) as [?|?]; [congruence|]. by eapply Htr.
Qed.

Lemma list_max_spec {T} (I : int_ty T) (HI : int_ty_ok I) l : l ≠ [] →
  ∃ m, list_max I l = Some m ∧ m ∈ l ∧ ∀ x, x ∈ l → it_leb I x m = true.
Proof.
  destruct l as [|y l]; [done|]. intros _. unfold list_max. cbn [foldl].
  destruct (list_max_fold I HI l y) as (m & -> & Hm & Hle & Hall). exists m. split_and!; [done| |].
  - apply elem_of_cons. destruct Hm; auto.
  - intros x [->|Hx]%elem_of_cons; auto.
Qed.

Lemma ty_u32_ok : int_ty_ok ty_u32.
Proof. split_and!; cbn; intros; rewrite ?N.leb_le in *; lia. Qed.
Lemma ty_i32_ok : int_ty_ok ty_i32.
Proof. split_and!; cbn; intros; rewrite ?Z.leb_le in *; lia. Qed.

(** The offset: zero for the empty colouring, otherwise one more than the largest colour. *)
Lemma vc_offset_spec {T} `{Countable T} (I : int_ty T) (HI : int_ty_ok I) (m : gmap N T) :
  (m = ∅ ∧ vc_offset I m = Ok (it_zero I)) ∨
  (∃ u c, m !! u = Some c ∧ (∀ v d, m !! v = Some d → it_leb I d c = true) ∧
    vc_offset I m = it_add I c (it_one I)).
Proof.
  unfold vc_offset. set (cs := collect_set (map_iter 2 m).*2 : gset T).
  assert (∀ c, c ∈ cs ↔ ∃ u, m !! u = Some c) as Hcs.
  { intros c. unfold cs, collect_set. rewrite elem_of_list_to_set, elem_of_list_fmap. split.
    - intros ([u c'] & -> & Hin). apply elem_of_map_iter in Hin. eauto.
    - intros [u Hu]. exists (u, c). split; [done|]. by apply elem_of_map_iter. }
  case_bool_decide as He.
  - left. split; [|done]. apply map_empty. intros u. destruct (m !! u) eqn:E; [|done].
    exfalso. assert (t ∈ cs) as Hin by (apply Hcs; eauto). rewrite He in Hin. set_solver.
  - right. destruct (list_max_spec I HI (hash_iter 3 cs)) as (c & Hc & Hin & Hall).
    { intros Hn. apply He. apply set_eq. intros x. rewrite <- (elem_of_hash_iter 3), Hn. set_solver. }
    apply elem_of_hash_iter, Hcs in Hin as [u Hu]. exists u, c. split_and!; [done| |].
    + intros v d Hv. apply Hall, elem_of_hash_iter, Hcs. eauto.
    + by rewrite Hc.
Qed.

(** The loop of [disjoint_extend]. *)
Lemma extend_fold {T} `{Countable T} (I : int_ty T) off (l : list (N * T)) : NoDup l.*1 → ∀ self r : gmap N T,
  fold_res (λ (m : gmap N T) p, c ← it_add I p.2 off;
    Ok (match m !! p.1 with Some _ => m | None => <[p.1 := c]> m end)) l self = Ok r →
  (∀ u c, self !! u = Some c → r !! u = Some c) ∧
  (∀ u, self !! u = None →
    (∃ d c, (u, d) ∈ l ∧ it_add I d off = Ok c ∧ r !! u = Some c) ∨ (u ∉ l.*1 ∧ r !! u = None)).
Proof.
  induction l as [|[v d] l IH]; intros Hnd self r; cbn [fold_res fst snd].
  - intros [= <-]. split; [done|]. intros u Hu. right. split; [apply not_elem_of_nil|done].
  - inversion Hnd as [|? ? Hv Hnd']; subst. destruct (it_add I d off) as [c| |] eqn:Ec; cbn [mbind res_bind]; [|done..].
    intros Hr. destruct (IH Hnd' _ _ Hr) as [H1 H2]. split.
    + intros u c' Hu. apply H1. destruct (self !! v) eqn:E; [done|]. rewrite lookup_insert_ne; [done|]. congruence.
    + intros u Hu. destruct (decide (u = v)) as [->|Hne].
      * left. exists d, c. split_and!; [by left|done|]. apply H1. rewrite Hu. by rewrite lookup_insert.
      * destruct (H2 u) as [(d' & c' & Hin & ? & ?)|[Hn ?]].
        -- destruct (self !! v); [done|]. by rewrite lookup_insert_ne.
        -- left. exists d', c'. split_and!; [by right|done|done].
        -- right. split; [|done]. cbn. rewrite not_elem_of_cons. done.
Qed.

Lemma disjoint_extend_lookup {T} `{Countable T} (I : int_ty T) (self other r : gmap N T) :
  vc_disjoint_extend I self other = Ok r →
  ∃ off, vc_offset I self = Ok off ∧
  (∀ u c, self !! u = Some c → r !! u = Some c) ∧
  (∀ u d, self !! u = None → other !! u = Some d → ∃ c, it_add I d off = Ok c ∧ r !! u = Some c) ∧
  (∀ u, self !! u = None → other !! u = None → r !! u = None).
Proof.
  unfold vc_disjoint_extend. intros (off & Hoff & Hr)%bind_ok. exists off. split; [done|].
  destruct (extend_fold I off (map_iter 4 other) (NoDup_map_iter_fst _ _) self r Hr) as [H1 H2].
  split_and!; [done| |].
  - intros u d Hu Ho. destruct (H2 u Hu) as [(d' & c & Hin & ? & ?)|[Hn _]].
    + apply elem_of_map_iter in Hin. simplify_eq. eauto.
    + exfalso. apply Hn. rewrite map_iter_fst. apply elem_of_hash_iter, elem_of_dom. eauto.
  - intros u Hu Ho. destruct (H2 u Hu) as [(d' & c & Hin & _)|[_ ?]]; [|done].
    apply elem_of_map_iter in Hin. congruence.
Qed.

Lemma disjoint_extend_total {T} `{Countable T} (I : int_ty T) (self other : gmap N T) off :
  vc_offset I self = Ok off → (∀ u d, other !! u = Some d → ∃ c, it_add I d off = Ok c) →
  ∃ r, vc_disjoint_extend I self other = Ok r.
Proof.
  intros Hoff Hadd. unfold vc_disjoint_extend. rewrite Hoff. cbn [mbind res_bind].
  match goal with |- ∃ r, fold_res ?f ?l ?s = _ => destruct (fold_res_inv' f (λ _, True) l s) as (r & Hr & _) end; [done| |eauto].
  intros [u d] m Hin _. apply elem_of_map_iter in Hin. destruct (Hadd u d Hin) as [c Hc]. cbn. rewrite Hc. cbn. eauto.
Qed.

(** [colours], [subset], [from_sets]. *)
Lemma uniq_fold {T} `{Countable T} (l acc : list T) : NoDup acc →
  let r := foldl (λ l c, if bool_decide (c ∈ l) then l else l ++ [c]) acc l in
  NoDup r ∧ ∀ c, c ∈ r ↔ c ∈ acc ∨ c ∈ l.
Proof.
  revert acc. induction l as [|c l IH]; intros acc Hnd; cbn [foldl].
  - split; [done|]. intros c. split; [auto|]. intros [?|Hn]; [done|]. by apply elem_of_nil in Hn.
  - case_bool_decide as Hc.
    + destruct (IH acc Hnd) as [H1 H2]. split; [done|]. intros d. rewrite H2, elem_of_cons. naive_solver.
    + destruct (IH (acc ++ [c])) as [H1 H2].
      { apply NoDup_app. split_and!; [done| |apply NoDup_singleton]. intros x Hx ->%elem_of_list_singleton. done. }
      split; [done|]. intros d. rewrite H2, elem_of_app, elem_of_list_singleton, elem_of_cons. naive_solver.
Qed.

Lemma vc_colours_spec {T} `{Countable T} (m : gmap N T) :
  NoDup (vc_colours m) ∧ ∀ c, c ∈ vc_colours m ↔ ∃ u, m !! u = Some c.
Proof.
  destruct (uniq_fold (map_iter 5 m).*2 [] (NoDup_nil_2)) as [H1 H2]. split; [exact H1|].
  intros c. unfold vc_colours. rewrite H2, elem_of_list_fmap. split.
  - intros [Hn|([u d] & -> & Hin)]; [by apply elem_of_nil in Hn|]. apply elem_of_map_iter in Hin. eauto.
  - intros [u Hu]. right. exists (u, c). split; [done|]. by apply elem_of_map_iter.
Qed.

Lemma subset_fold {T} (m : gmap N T) vs : ∀ (acc : gmap N T) u,
  foldl (λ m' v, match m !! v with Some c => <[v := c]> m' | None => m' end) acc vs !! u
  = if bool_decide (u ∈ vs) then (match m !! u with Some c => Some c | None => acc !! u end) else acc !! u.
Proof.
  induction vs as [|v vs IH]; intros acc u; cbn [foldl].
  - rewrite bool_decide_eq_false_2; [done|apply not_elem_of_nil].
  - rewrite IH. destruct (decide (u = v)) as [->|Hne].
    + rewrite (bool_decide_eq_true_2 (v ∈ v :: vs)) by left.
      destruct (m !! v) eqn:E; [|by case_bool_decide]. rewrite lookup_insert. by case_bool_decide.
    + rewrite (bool_decide_ext (u ∈ v :: vs) (u ∈ vs)) by (rewrite elem_of_cons; naive_solver).
      destruct (m !! v); [|done]. by rewrite lookup_insert_ne.
Qed.

Lemma from_sets_fold sets : ∀ k (acc : gmap N N) u,
  let r := foldl (λ m p, foldl (λ m v, <[v := u32 (N.of_nat p.1)]> m) m (hash_iter 6 p.2)) acc
             (imap (λ i X, (k + i, X)) sets) in
  (∃ i X, sets !! i = Some X ∧ u ∈ X ∧ (∀ j Y, sets !! j = Some Y → u ∈ Y → j ≤ i) ∧
     r !! u = Some (u32 (N.of_nat (k + i)))) ∨
  ((∀ X, X ∈ sets → u ∉ X) ∧ r !! u = acc !! u).
Proof.
  induction sets as [|X sets IH]; intros k acc u.
  - right. split; [|done]. intros X HX. by apply elem_of_nil in HX.
  - cbn zeta. rewrite imap_cons. cbn [foldl fst snd]. rewrite Nat.add_0_r.
    replace (imap ((λ i Y, (k + i, Y)) ∘ S) sets) with (imap (λ i (Y : gset N), (S k + i, Y)) sets)
      by (apply imap_ext; intros; cbn; f_equal; lia).
    destruct (IH (S k) (foldl (λ m v, <[v := u32 (N.of_nat k)]> m) acc (hash_iter 6 X)) u)
      as [(i & Y & Hi & Hu & Hmax & Hr)|[Hn Hr]].
    + left. exists (S i), Y. split_and!; [done|done| |].
      * intros [|j] Z; cbn; intros Hj Hz; [lia|]. specialize (Hmax j Z Hj Hz). lia.
      * etransitivity; [exact Hr|]. do 3 f_equal. lia.
    + assert (∀ l (acc : gmap N N), foldl (λ m v, <[v := u32 (N.of_nat k)]> m) acc l !! u
         = if bool_decide (u ∈ l) then Some (u32 (N.of_nat k)) else acc !! u) as Hf.
      { clear. induction l as [|v l IH]; intros acc; cbn [foldl].
        - rewrite bool_decide_eq_false_2; [done|apply not_elem_of_nil].
        - rewrite IH. destruct (decide (u = v)) as [->|Hne].
          + rewrite (bool_decide_eq_true_2 (v ∈ v :: l)) by left. rewrite lookup_insert. by case_bool_decide.
          + rewrite (bool_decide_ext (u ∈ v :: l) (u ∈ l)) by (rewrite elem_of_cons; naive_solver).
            by rewrite lookup_insert_ne. }
      rewrite Hf in Hr. case_bool_decide as HX.
      * left. exists 0, X. apply elem_of_hash_iter in HX. split_and!; [done|done| |].
        -- intros [|j] Z; cbn; intros Hj Hz; [lia|]. exfalso. apply (Hn Z); [|done]. by eapply elem_of_list_lookup_2.
        -- etransitivity; [exact Hr|]. do 3 f_equal. lia.
      * right. rewrite elem_of_hash_iter in HX. split; [|exact Hr]. intros Y [->|HY]%elem_of_cons; auto.
Qed.

Lemma vc_from_sets_spec sets u : (N.of_nat (length sets) <= u32_mod)%N →
  (∃ i X, sets !! i = Some X ∧ u ∈ X ∧ (∀ j Y, sets !! j = Some Y → u ∈ Y → j ≤ i) ∧
     vc_from_sets sets !! u = Some (N.of_nat i)) ∨
  ((∀ X, X ∈ sets → u ∉ X) ∧ vc_from_sets sets !! u = None).
Proof.
  intros Hlen. destruct (from_sets_fold sets 0 ∅ u) as [(i & X & Hi & Hu & Hmax & Hr)|[Hn Hr]].
  - left. exists i, X. split_and!; try done. etransitivity; [exact Hr|]. cbn. f_equal.
    unfold u32. apply N.mod_small. apply lookup_lt_Some in Hi. lia.
  - right. split; [done|]. etransitivity; [exact Hr|]. apply lookup_empty.
Qed.
End with_iter.
