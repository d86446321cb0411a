(** C63, C64, C65, C69: vertex maps, colourings, and vertex/edge intersection. *)
From Verif Require Import Base Spec M_Colouring P_Colouring.

(** The vertices of a vertex or edge. *)
Definition voe_has (a : voe) (x : N) : Prop :=
  match a with V v => x = v | E (p, q) => x = p ∨ x = q end.
(** Two edges are equal up to orientation. *)
Definition same_edge (e f : N * N) : Prop := e = f ∨ e = (f.2, f.1).

(** ** C65 *)
Theorem C65_intersects (a b : voe) :
  (intersects a b = true ↔ ∃ x, voe_has a x ∧ voe_has b x) ∧ intersects a b = intersects b a.
Proof.
  destruct a as [v|[p q]], b as [w|[r s]]; unfold intersects, intersection, voe_has;
    repeat case_bool_decide; cbn; simplify_eq; split; try done; split; try done; naive_solver.
Qed.
Theorem C65_intersection (a b : voe) :
  (∀ e, intersection a b = Some (E e) ↔ ∃ f, a = E e ∧ b = E f ∧ same_edge e f) ∧
  (∀ x, intersection a b = Some (V x) → voe_has a x ∧ voe_has b x) ∧
  (intersection a b = None ↔ ¬ ∃ x, voe_has a x ∧ voe_has b x) ∧
  (∀ x, voe_has a x → voe_has b x →
    (∃ e f, a = E e ∧ b = E f ∧ same_edge e f) ∨ ∃ y, intersection a b = Some (V y)).
Proof.
  unfold same_edge. destruct a as [v|[p q]], b as [w|[r s]]; unfold intersection, voe_has;
    repeat case_bool_decide; cbn; simplify_eq; split_and!; intros; try done; naive_solver.
Qed.
Theorem C65_accessors (a : voe) :
  is_vertex a = negb (is_edge a) ∧ (is_vertex a = true ↔ ∃ v, a = V v) ∧
  (∀ v, as_vertex a = Some v ↔ a = V v) ∧ (∀ e, as_edge a = Some e ↔ a = E e).
Proof. destruct a; cbn; split_and!; intros; naive_solver. Qed.

Section with_iter.
Context `{HashIter}.

(** ** C63 *)
Theorem C63_invert {T} `{Countable T} (m : gmap N T) :
  (∀ c X, vm_invert m !! c = Some X → X ≠ ∅ ∧ ∀ u, u ∈ X ↔ m !! u = Some c) ∧
  (∀ u c, m !! u = Some c → ∃ X, vm_invert m !! c = Some X ∧ u ∈ X).
Proof.
  split; [intros c X; apply vm_invert_spec|]. intros u c Hu.
  assert (∀ v, v ∈ dom (filter (λ p : N * T, p.2 = c) m) ↔ m !! v = Some c) as Hd.
  { intros v. rewrite elem_of_dom. split.
    - intros [c' Hv]. apply map_filter_lookup_Some in Hv as [Hv Hc]. cbn in Hc. by subst.
    - intros Hv. exists c. by apply map_filter_lookup_Some. }
  exists (dom (filter (λ p : N * T, p.2 = c) m)). split; [|by apply Hd].
  apply vm_invert_spec. split; [|done]. intros He. apply Hd in Hu. rewrite He in Hu. set_solver.
Qed.
Theorem C63_majority_set {T} `{Countable T} (m : gmap N T) :
  (m = ∅ ∧ vm_majority_set m = Ok None) ∨
  (m ≠ ∅ ∧ ∃ X c, vm_majority_set m = Ok (Some (X, c)) ∧
    X ≠ ∅ ∧ (∀ u, u ∈ X ↔ m !! u = Some c) ∧
    ∀ (Y : gset N) d, (∀ u, u ∈ Y → m !! u = Some d) → size Y ≤ size X).
Proof.
  destruct (vm_majority_spec m) as [?|(Hne & X & c & Hm & Hi & Hmax)]; [by left|]. right. split; [done|].
  exists X, c. split; [done|]. pose proof Hi as [HX Hu]%vm_invert_spec. split_and!; [done|done|].
  intros Y d HY. destruct (decide (Y = ∅)) as [->|HYne]; [rewrite size_empty; lia|].
  apply set_choose_L in HYne as [u Huy]. destruct (proj2 (C63_invert m) u d (HY u Huy)) as (Z & HZ & _).
  etransitivity; [|apply (Hmax d Z HZ)]. apply subseteq_size. intros v Hv.
  apply vm_invert_spec in HZ as [_ HZ]. by apply HZ, HY.
Qed.

(** ** C64 *)
Theorem C64_disjoint_extend (self other r : gmap N N) : vc_disjoint_extend ty_u32 self other = Ok r →
  (∀ u c, self !! u = Some c → r !! u = Some c) ∧
  (∀ u, is_Some (r !! u) ↔ is_Some (self !! u) ∨ is_Some (other !! u)) ∧
  (∀ u v c d, self !! u = None → self !! v = None → other !! u = Some c → other !! v = Some d →
    (r !! u = r !! v ↔ c = d)) ∧
  (∀ u v, is_Some (self !! u) → self !! v = None → is_Some (other !! v) → r !! u ≠ r !! v).
Proof.
  intros (off & Hoff & H1 & H2 & H3)%disjoint_extend_lookup. split_and!; [done| | |].
  - intros u. split.
    + intros [c Hc]. destruct (self !! u) eqn:E; [left; eauto|]. destruct (other !! u) eqn:E'; [right; eauto|].
      rewrite (H3 u E E') in Hc. done.
    + destruct (self !! u) eqn:E; [rewrite (H1 _ _ E); eauto|]. intros [[? [=]]|[d Hd]].
      destruct (H2 u d E Hd) as (c & _ & ->). eauto.
  - intros u v c d Hu Hv Hc Hd. destruct (H2 u c Hu Hc) as (c' & Hc' & ->). destruct (H2 v d Hv Hd) as (d' & Hd' & ->).
    cbn in Hc', Hd'. repeat case_match; simplify_eq. split; [intros [=]; lia|by intros ->].
  - intros u v [c Hc] Hv [d Hd]. rewrite (H1 _ _ Hc). destruct (H2 v d Hv Hd) as (d' & Hd' & ->). intros [= <-].
    destruct (vc_offset_spec ty_u32 ty_u32_ok self) as [[-> _]|(w & m & Hw & Hall & Ho)].
    { by rewrite lookup_empty in Hc. }
    rewrite Hoff in Ho. specialize (Hall u c Hc). cbn in Ho, Hd', Hall. apply N.leb_le in Hall.
    repeat case_match; simplify_eq. lia.
Qed.
(** It panics only on arithmetic overflow. *)
Theorem C64_disjoint_extend_total (self other : gmap N N) :
  (∀ u v c d, self !! u = Some c → other !! v = Some d → (c + 1 + d < u32_mod)%N) →
  (∀ u c, self !! u = Some c → (c + 1 < u32_mod)%N) → (∀ u c, other !! u = Some c → (c < u32_mod)%N) →
  ∃ r, vc_disjoint_extend ty_u32 self other = Ok r.
Proof.
  intros Hb Hs Ho. destruct (vc_offset_spec ty_u32 ty_u32_ok self) as [[_ Hoff]|(w & m & Hw & _ & Hoff)].
  - apply (disjoint_extend_total ty_u32 self other _ Hoff). intros u d Hd. specialize (Ho u d Hd). cbn.
    rewrite N.add_0_r. destruct (N.ltb_spec d u32_mod); [eauto|lia].
  - specialize (Hs w m Hw). cbn in Hoff. destruct (N.ltb_spec (m + 1) u32_mod); [|lia].
    apply (disjoint_extend_total ty_u32 self other _ Hoff). intros u d Hd. specialize (Hb w u m d Hw Hd). cbn.
    destruct (N.ltb_spec (d + (m + 1)) u32_mod); [eauto|lia].
Qed.
(** With signed colours the same holds as long as the colours of [other] are not negative. *)
Theorem C64_signed (self other r : gmap N Z) : vc_disjoint_extend ty_i32 self other = Ok r →
  (∀ u c, self !! u = Some c → r !! u = Some c) ∧
  (∀ u, is_Some (r !! u) ↔ is_Some (self !! u) ∨ is_Some (other !! u)) ∧
  (∀ u v c d, self !! u = None → self !! v = None → other !! u = Some c → other !! v = Some d →
    (r !! u = r !! v ↔ c = d)) ∧
  ((∀ u c, other !! u = Some c → (0 <= c)%Z) →
   ∀ u v, is_Some (self !! u) → self !! v = None → is_Some (other !! v) → r !! u ≠ r !! v).
Proof.
  intros (off & Hoff & H1 & H2 & H3)%disjoint_extend_lookup. split_and!; [done| | |].
  - intros u. split.
    + intros [c Hc]. destruct (self !! u) eqn:E; [left; eauto|]. destruct (other !! u) eqn:E'; [right; eauto|].
      rewrite (H3 u E E') in Hc. done.
    + destruct (self !! u) eqn:E; [rewrite (H1 _ _ E); eauto|]. intros [[? [=]]|[d Hd]].
      destruct (H2 u d E Hd) as (c & _ & ->). eauto.
  - intros u v c d Hu Hv Hc Hd. destruct (H2 u c Hu Hc) as (c' & Hc' & ->). destruct (H2 v d Hv Hd) as (d' & Hd' & ->).
    cbn in Hc', Hd'. repeat case_match; simplify_eq. split; [intros [=]; lia|by intros ->].
  - intros Hpos u v [c Hc] Hv [d Hd]. rewrite (H1 _ _ Hc). destruct (H2 v d Hv Hd) as (d' & Hd' & ->). intros [= <-].
    destruct (vc_offset_spec ty_i32 ty_i32_ok self) as [[-> _]|(w & m & Hw & Hall & Ho)].
    { by rewrite lookup_empty in Hc. }
    rewrite Hoff in Ho. specialize (Hall u c Hc). specialize (Hpos v d Hd). cbn in Ho, Hd', Hall. apply Z.leb_le in Hall.
    repeat case_match; simplify_eq. lia.
Qed.

(** ** C69 *)
Theorem C69_subset {T} (m : gmap N T) vs u :
  vc_subset m vs !! u = if bool_decide (u ∈ vs) then m !! u else None.
Proof. unfold vc_subset. rewrite subset_fold, lookup_empty. case_bool_decide; [by case_match|done]. Qed.
Theorem C69_from_sets sets u : (N.of_nat (length sets) <= u32_mod)%N →
  (∃ i X, sets !! i = Some X ∧ u ∈ X ∧ (∀ j Y, sets !! j = Some Y → u ∈ Y → j ≤ i) ∧
     vc_from_sets sets !! u = Some (N.of_nat i)) ∨
  ((∀ X, X ∈ sets → u ∉ X) ∧ vc_from_sets sets !! u = None).
Proof. apply vc_from_sets_spec. Qed.
Theorem C69_from_disjoint_sets sets u v : (N.of_nat (length sets) <= u32_mod)%N →
  (∀ i j X Y x, sets !! i = Some X → sets !! j = Some Y → x ∈ X → x ∈ Y → i = j) →
  (∃ X, X ∈ sets ∧ u ∈ X) →
  (vc_from_sets sets !! u = vc_from_sets sets !! v ↔ ∃ X, X ∈ sets ∧ u ∈ X ∧ v ∈ X).
Proof.
  intros Hlen Hd (X & HX & Hu).
  destruct (vc_from_sets_spec sets u Hlen) as [(i & Y & Hi & Huy & _ & ->)|[Hn _]]; [|by apply (Hn X) in Hu].
  destruct (vc_from_sets_spec sets v Hlen) as [(j & Z & Hj & Hvz & _ & ->)|[Hn ->]].
  - split.
    + intros [= Hij]. assert (i = j) as -> by lia. simplify_eq. exists Y. split_and!; [|done|done].
      by eapply elem_of_list_lookup_2.
    + intros (W & HW & HuW & HvW). apply elem_of_list_lookup in HW as [k Hk].
      assert (i = k) as -> by (eapply (Hd i k Y W u); done). assert (j = k) as -> by (eapply (Hd j k Z W v); done). done.
  - split; [done|]. intros (W & HW & _ & Hv). by apply (Hn W) in Hv.
Qed.
Theorem C69_colours {T} `{Countable T} (m : gmap N T) :
  NoDup (vc_colours m) ∧ ∀ c, c ∈ vc_colours m ↔ ∃ u, m !! u = Some c.
Proof. apply vc_colours_spec. Qed.
End with_iter.

(** ** Refutation: a negative colour of [other] lands on an old colour. *)
Local Existing Instance std_iter.
Theorem C64_negative_refuted : ∃ (self other r : gmap N Z) u v,
  vc_disjoint_extend ty_i32 self other = Ok r ∧ is_Some (self !! u) ∧ self !! v = None ∧ is_Some (other !! v) ∧
  r !! u = r !! v.
Proof.
  exists {[1%N := 0%Z]}, {[2%N := (-1)%Z]}. eexists _, 1%N, 2%N.
  split_and!; [vm_compute; reflexivity|vm_compute; eauto|vm_compute; done|vm_compute; eauto|vm_compute; done].
Qed.

(** Concrete cases. *)
Definition ex_map : gmap N N := list_to_map [(1, 7); (2, 5); (3, 7); (4, 7); (5, 5)]%N.
Example ex_C63_invert : map (λ p, (p.1, elements p.2)) (map_to_list (vm_invert ex_map)) = [(7, [1; 3; 4]); (5, [5; 2])]%N.
Proof. vm_compute. done. Qed.
Example ex_C63_majority : (o ← vm_majority_set ex_map; Ok (match o with Some p => Some (elements p.1, p.2) | None => None end)) = Ok (Some ([1; 3; 4], 7))%N.
Proof. vm_compute. done. Qed.
Example ex_C64 : (r ← vc_disjoint_extend ty_u32 ex_map {[1 := 0; 8 := 0; 9 := 3; 10 := 0]}; Ok (map_to_list r))%N
  = Ok [(1, 7); (3, 7); (5, 5); (9, 11); (2, 5); (4, 7); (8, 8); (10, 8)]%N.
Proof. vm_compute. done. Qed.
Example ex_C64_signed : (r ← vc_disjoint_extend ty_i32 {[1%N := (-5)%Z; 2%N := 4%Z]} {[3%N := 0%Z; 4%N := 2%Z]};
  Ok (map_to_list r)) = Ok [(1%N, (-5)%Z); (3%N, 5%Z); (2%N, 4%Z); (4%N, 7%Z)].
Proof. vm_compute. done. Qed.
Example ex_C65 : (intersection (E (1, 2)) (E (2, 1)) = Some (E (1, 2)) ∧ intersection (E (1, 2)) (E (3, 2)) = Some (V 2) ∧
  intersection (V 1) (E (3, 2)) = None ∧ intersection (E (1, 1)) (V 1) = Some (V 1))%N.
Proof. vm_compute. done. Qed.
Example ex_C69 : map_to_list (vc_subset ex_map [3; 9; 2; 3])%N = [(3, 7); (2, 5)]%N ∧
  map_to_list (vc_from_sets [{[1; 2]}; {[3]}; ∅; {[4; 5]}])%N = [(1, 0); (3, 1); (5, 3); (2, 0); (4, 3)]%N ∧
  vc_colours ex_map = [7; 5]%N.
Proof. vm_compute. done. Qed.

Print Assumptions C65_intersects.
Print Assumptions C65_intersection.
Print Assumptions C65_accessors.
Print Assumptions C63_invert.
Print Assumptions C63_majority_set.
Print Assumptions C64_disjoint_extend.
Print Assumptions C64_disjoint_extend_total.
Print Assumptions C64_signed.
Print Assumptions C69_subset.
Print Assumptions C69_from_sets.
Print Assumptions C69_from_disjoint_sets.
Print Assumptions C69_colours.
Print Assumptions C64_negative_refuted.
