(** Proofs about [degeneracy]. *)
From Verif Require Import Base Spec M_Graph M_Iterators M_EditGraph M_Algorithms S_Graph S_Multi P_Graph P_Iterators.

(** ** calc_index *)
Lemma calc_index_le i : calc_index i ≤ i.
Proof.
  unfold calc_index. destruct (decide (i < 128)).
  - replace (i + 1 - 128) with 0 by lia. rewrite Nat.log2_up_eqn0 by lia. lia.
  - pose proof (Nat.log2_up_lt_lin (i + 1 - 128)). lia.
Qed.
Lemma calc_index_mono i j : i ≤ j → calc_index i ≤ calc_index j.
Proof.
  intros Hij. unfold calc_index.
  pose proof (Nat.log2_up_le_mono (i + 1 - 128) (j + 1 - 128)). lia.
Qed.
(** The largest degree with index [k]. *)
Definition idx_max (k : nat) : nat := if decide (k ≤ 129) then k else 127 + 2 ^ (k - 128).
Lemma calc_index_max i : i ≤ idx_max (calc_index i).
Proof.
  unfold idx_max, calc_index. destruct (decide (i ≤ 128)) as [Hi|Hi].
  - assert (Nat.log2_up (i + 1 - 128) = 0) as -> by (apply Nat.log2_up_eqn0; lia).
    rewrite decide_True by lia. lia.
  - pose proof (Nat.log2_up_spec (i + 1 - 128)) as [_ Hs]; [lia|].
    set (l := Nat.log2_up (i + 1 - 128)) in *. clearbody l.
    replace (min i 128) with 128 by lia. case_decide as Hd.
    + assert (l = 0 ∨ l = 1) as [-> | ->] by lia; cbn [Nat.pow Nat.mul] in Hs; lia.
    + replace (128 + l - 128) with l by lia. lia.
Qed.
Lemma idx_max_mono i j : i ≤ j → idx_max i ≤ idx_max j.
Proof.
  intros Hij. unfold idx_max. repeat case_decide; [lia| |lia|].
  - assert (2 ^ 2 ≤ 2 ^ (j - 128)) by (apply Nat.pow_le_mono_r; lia). cbn [Nat.pow Nat.mul Nat.add] in *. lia.
  - assert (2 ^ (i - 128) ≤ 2 ^ (j - 128)) by (apply Nat.pow_le_mono_r; lia). lia.
Qed.
Lemma calc_index_small i : calc_index i ≤ 129 → calc_index i = i.
Proof.
  intros Hi. pose proof (calc_index_max i) as Hm. unfold idx_max in Hm. rewrite decide_True in Hm by done.
  pose proof (calc_index_le i). lia.
Qed.
Lemma dgn_lower_le c : dgn_lower c ≤ c.
Proof.
  unfold dgn_lower. pose proof (calc_index_le c). destruct (Nat.leb_spec (calc_index c) 129) as [|Hix]; [lia|].
  unfold calc_index in *. destruct (decide (c ≤ 128)); [lia|].
  pose proof (Nat.log2_up_spec (c + 1 - 128)) as [Hs _]; [lia|].
  replace (min c 128) with 128 in * by lia.
  set (l := Nat.log2_up (c + 1 - 128)) in *. clearbody l.
  replace (128 + l - 129 - 1) with (l - 2) by lia.
  replace (Nat.pred l) with (S (l - 2)) in Hs by lia. rewrite Nat.pow_succ_r' in Hs.
  assert (2 ^ (l - 2) ≠ 0) by (apply Nat.pow_nonzero; lia). lia.
Qed.
Lemma dgn_lower_small c : c ≤ 129 → dgn_lower c = c.
Proof.
  intros Hc. unfold dgn_lower. pose proof (calc_index_le c).
  rewrite (proj2 (Nat.leb_le _ _)) by lia. apply calc_index_small. lia.
Qed.

(** ** Buckets *)
Definition inb (b : gmap nat (gset N)) (d : nat) (w : N) : Prop := ∃ X, b !! d = Some X ∧ w ∈ X.

Lemma inb_add b k u d w :
  inb (map_upd ∅ (λ X, {[u]} ∪ X) k b) d w ↔ inb b d w ∨ (d = k ∧ w = u).
Proof.
  unfold inb, map_upd. destruct (decide (d = k)) as [->|Hne].
  - rewrite lookup_insert. split.
    + intros (X & [= <-] & Hw). destruct (b !! k) as [Y|]; cbn in Hw; set_solver.
    + intros [(X & -> & Hw)|[_ ->]]; (eexists; split; [done|]); cbn; set_solver.
  - rewrite lookup_insert_ne by done. naive_solver.
Qed.
Lemma inb_remove b k u d w :
  inb (alter (λ X, X ∖ {[u]}) k b) d w ↔ inb b d w ∧ ¬ (d = k ∧ w = u).
Proof.
  unfold inb. destruct (decide (d = k)) as [->|Hne].
  - rewrite lookup_alter. split.
    + intros (X & HX & Hw). destruct (b !! k) as [Y|]; cbn in HX; simplify_eq. set_solver.
    + intros [(X & -> & Hw) Hn]. eexists; split; [done|]. set_solver.
  - rewrite lookup_alter_ne by done. naive_solver.
Qed.
Lemma inb_pop b k X u d w : b !! k = Some X →
  inb (<[k := X ∖ {[u]}]> b) d w ↔ inb b d w ∧ ¬ (d = k ∧ w = u).
Proof.
  intros Hk. unfold inb. destruct (decide (d = k)) as [->|Hne].
  - rewrite lookup_insert, Hk. split.
    + intros (Y & [= <-] & [Hw Hn]%elem_of_difference). split; [by exists X|]. set_solver.
    + intros [(Y & [= <-] & Hw) Hn]. eexists; split; [done|]. apply elem_of_difference. split; [done|].
      intros ->%elem_of_singleton. naive_solver.
  - rewrite lookup_insert_ne by done. naive_solver.
Qed.

Lemma foldr_max_le l x : x ∈ l → x ≤ foldr max 0 l.
Proof. induction l as [|y l IH]; [set_solver|]. intros [->|Hx]%elem_of_cons; cbn; [lia|]. specialize (IH Hx). lia. Qed.

Lemma dgn_find_spec b : ∀ fuel d0,
  (∀ d w, inb b d w → d0 ≤ d) → (∃ d w, inb b d w ∧ d < d0 + fuel) →
  ∃ d X, dgn_find b fuel d0 = Ok d ∧ b !! d = Some X ∧ X ≠ ∅ ∧ (∀ d' w, inb b d' w → d ≤ d').
Proof.
  induction fuel as [|fuel IH]; intros d0 Hlo (d1 & w & Hw & Hlt).
  { specialize (Hlo d1 w Hw). lia. }
  assert ((∃ X, b !! d0 = Some X ∧ X ≠ ∅) ∨ (∀ w, ¬ inb b d0 w)) as [(X & HX & Hne)|Hno].
  { destruct (b !! d0) as [X|] eqn:E.
    - destruct (decide (X = ∅)) as [->|]; [right|left; eauto]. intros w' (Y & HY & Hw'). rewrite E in HY. set_solver.
    - right. intros w' (Y & HY & _). congruence. }
  - exists d0, X. cbn. rewrite HX, bool_decide_false by done. split_and!; [done|done|done|]. intros. by eapply Hlo.
  - assert (dgn_find b (S fuel) d0 = dgn_find b fuel (d0 + 1)) as ->.
    { cbn. destruct (b !! d0) as [X|] eqn:E; [|done]. case_bool_decide as HX; [done|].
      exfalso. apply set_choose_L in HX as [x Hx]. apply (Hno x). exists X. done. }
    apply IH.
    + intros d w' Hw'. specialize (Hlo d w' Hw'). destruct (decide (d = d0)) as [->|]; [|lia].
      exfalso. by apply (Hno w').
    + exists d1, w. split; [done|]. lia.
Qed.
Lemma dgn_find_ok b : (∃ d w, inb b d w) →
  ∃ d X, dgn_find b (dgn_fuel b) 0 = Ok d ∧ b !! d = Some X ∧ X ≠ ∅ ∧ (∀ d' w, inb b d' w → d ≤ d').
Proof.
  intros (d & w & Hw). apply dgn_find_spec; [lia|]. exists d, w. split; [done|].
  destruct Hw as (X & HX & _). unfold dgn_fuel.
  pose proof (foldr_max_le (elements (dom b)) d). rewrite elem_of_elements, elem_of_dom, HX in H. 
  specialize (H (mk_is_Some _ _ eq_refl)). lia.
Qed.

(** ** Remaining degrees *)
Definition nbrs (G : graph) (v : N) : list N := match neighbours G v with Ok l => l | _ => [] end.
Lemma nbrs_spec G v : graph_wf G → vtx G v →
  neighbours G v = Ok (nbrs G v) ∧ NoDup (nbrs G v) ∧ (∀ u, u ∈ nbrs G v ↔ adj G v u) ∧
  (¬ adj G v v → degree G v = length (nbrs G v)).
Proof.
  intros Hwf Hv. destruct (wf_neighbours _ Hwf v Hv) as (l & Hl & Hnd & Hin & Hd). unfold nbrs. rewrite Hl.
  split_and!; [done|done|done|]. intros Hn. rewrite Hd. unfold adj in Hn. destruct (adjacent G v v); [done|lia].
Qed.
Lemma nbrs_weak G v : weak_wf G → vtx G v →
  neighbours G v = Ok (nbrs G v) ∧ ∀ u, u ∈ nbrs G v ↔ adj G v u.
Proof. intros Hwf Hv. destruct (ww_neighbours _ Hwf v Hv) as (l & Hl & Hin). unfold nbrs. by rewrite Hl. Qed.
(** Number of neighbours outside [ord]. *)
Definition rdeg (G : graph) (ord : list N) (w : N) : nat := length (filter (λ u, u ∉ ord) (nbrs G w)).

Lemma length_filter_neq (l : list N) v (P : N → Prop) `{∀ x, Decision (P x)} :
  NoDup l → v ∈ l → P v →
  length (filter (λ u, P u ∧ u ≠ v) l) + 1 = length (filter P l).
Proof.
  induction l as [|x l IH]; [set_solver|]. intros [Hx Hnd]%NoDup_cons Hv HP.
  apply elem_of_cons in Hv as [->|Hv].
  - rewrite (filter_cons_False (λ u, P u ∧ u ≠ x)) by naive_solver.
    rewrite filter_cons_True by done. cbn.
    assert (filter (λ u, P u ∧ u ≠ x) l = filter P l) as ->; [|lia].
    clear -Hx. induction l as [|y l IH]; [done|]. rewrite !filter_cons.
    destruct (decide (P y)), (decide (P y ∧ y ≠ x)); [f_equal; apply IH; set_solver|set_solver|naive_solver|apply IH; set_solver].
  - assert (x ≠ v) by set_solver. rewrite !filter_cons. destruct (decide (P x)), (decide (P x ∧ x ≠ v)); [|naive_solver|naive_solver|auto].
    cbn. rewrite <- (IH Hnd Hv HP). done.
Qed.

Global Instance adj_dec G u v : Decision (adj G u v).
Proof. unfold adj. apply _. Defined.

Lemma rdeg_snoc G ord v w : graph_wf G → vtx G w → v ∉ ord →
  rdeg G ord w = rdeg G (ord ++ [v]) w + (if bool_decide (adj G w v) then 1 else 0).
Proof.
  intros Hwf Hw Hv. destruct (nbrs_spec G w Hwf Hw) as (_ & Hnd & Hin & _). unfold rdeg.
  assert (filter (λ u, u ∉ ord ++ [v]) (nbrs G w) = filter (λ u, u ∉ ord ∧ u ≠ v) (nbrs G w)) as ->.
  { apply list_filter_iff. intros x. rewrite elem_of_app, elem_of_list_singleton. naive_solver. }
  case_bool_decide as Ha.
  - rewrite <- (length_filter_neq (nbrs G w) v (λ u, u ∉ ord)); [lia|done|by apply Hin|done].
  - assert (filter (λ u, u ∉ ord ∧ u ≠ v) (nbrs G w) = filter (λ u, u ∉ ord) (nbrs G w)) as ->; [|lia].
    assert (v ∉ nbrs G w) as Hvn by (by rewrite Hin). clear -Hvn.
    induction (nbrs G w) as [|x l IH]; [done|]. rewrite !filter_cons.
    assert (x ≠ v ∧ v ∉ l) as [? ?] by set_solver. rewrite IH by done.
    destruct (decide (x ∉ ord)), (decide (x ∉ ord ∧ x ≠ v)); naive_solver.
Qed.

Lemma rdeg_anti G ord ord' w : (∀ x, x ∈ ord → x ∈ ord') → rdeg G ord' w ≤ rdeg G ord w.
Proof.
  intros Hsub. unfold rdeg. induction (nbrs G w) as [|x l IH]; [done|]. rewrite !filter_cons.
  destruct (decide (x ∉ ord')), (decide (x ∉ ord)); cbn; try lia. exfalso. naive_solver.
Qed.

Section with_iter.
Context `{HI : HashIter}.
Context (G : graph) (Hwf : graph_wf G) (Hloop : loopless G).

(** State of the neighbour loop after processing [l1]. *)
Record upd_inv (ord : list N) (v : N) (l1 : list N) (s : gmap N nat * gmap nat (gset N)) : Prop := {
  ui_deg : ∀ w, vtx G w → w ∉ ord → w ≠ v →
     s.1 !! w = Some (rdeg G ord w - (if decide (w ∈ l1) then 1 else 0));
  ui_b : ∀ d w, inb s.2 d w ↔ vtx G w ∧ w ∉ ord ∧ w ≠ v ∧
     d = calc_index (rdeg G ord w - (if decide (w ∈ l1) then 1 else 0));
}.

Lemma dgn_update_spec ord v core deg b :
  vtx G v → v ∉ ord → (∀ u, is_Some (core !! u) ↔ u ∈ ord) →
  upd_inv ord v [] (deg, b) →
  ∃ s, fold_res (dgn_update core) (nbrs G v) (deg, b) = Ok s ∧
    (∀ w, vtx G w → w ∉ ord ++ [v] → s.1 !! w = Some (rdeg G (ord ++ [v]) w)) ∧
    (∀ d w, inb s.2 d w ↔ vtx G w ∧ w ∉ ord ++ [v] ∧ d = calc_index (rdeg G (ord ++ [v]) w)).
Proof.
  intros Hv Hvo Hcore H0. destruct (nbrs_spec G v Hwf Hv) as (_ & Hnd & Hin & _).
  destruct (fold_res_inv (dgn_update core) (upd_inv ord v) (nbrs G v) (deg, b) H0) as (s & Hs & HIs).
  - intros l1 u l2 s Hl HIs. unfold dgn_update.
    assert (adj G v u) as Hvu by (apply Hin; rewrite Hl; set_solver).
    pose proof (wf_adj_sym _ Hwf _ _ Hvu) as Huv. assert (vtx G u) as Hu by (by apply (wf_adj_vtx _ Hwf u v)).
    assert (u ≠ v) as Hne by (intros ->; by apply (Hloop v)).
    assert (u ∉ l1) as Hul1. { rewrite Hl in Hnd. apply NoDup_app in Hnd as (_ & Hd & _). intros ?. apply (Hd u); set_solver. }
    destruct (core !! u) as [c|] eqn:Ec.
    + assert (u ∈ ord) as Huo by (apply Hcore; eauto). exists s. split; [done|]. split.
      * intros w Hw Hwo Hwv. rewrite (ui_deg _ _ _ _ HIs) by done.
        assert (w ≠ u) by (intros ->; done). do 2 f_equal. repeat case_decide; set_solver.
      * intros d w. rewrite (ui_b _ _ _ _ HIs). split; intros (? & ? & ? & ->); split_and!; try done;
          (assert (w ≠ u) by (intros ->; done)); do 2 f_equal; repeat case_decide; set_solver.
    + assert (u ∉ ord) as Huo by (rewrite <- Hcore, Ec; by intros [? ?]).
      pose proof (rdeg_snoc G ord v u Hwf Hu Hvo) as Hrd. rewrite bool_decide_true in Hrd by done.
      rewrite (ui_deg _ _ _ _ HIs) by done. rewrite decide_False by done. cbn [unwrap mbind res_bind].
      rewrite Nat.sub_0_r. unfold sub_checked. rewrite (proj2 (Nat.leb_le _ _)) by lia. cbn [mbind res_bind].
      eexists; split; [done|].
      assert (∀ d w, inb
          (if calc_index (rdeg G ord u) =? calc_index (rdeg G ord u - 1) then s.2
           else map_upd ∅ (λ X, {[u]} ∪ X) (calc_index (rdeg G ord u - 1))
                  (alter (λ X, X ∖ {[u]}) (calc_index (rdeg G ord u)) s.2)) d w ↔
          (w ≠ u ∧ inb s.2 d w) ∨ (w = u ∧ d = calc_index (rdeg G ord u - 1))) as Hb.
      { intros d w. assert (∀ d, inb s.2 d u ↔ d = calc_index (rdeg G ord u)) as Hbu.
        { intros d'. rewrite (ui_b _ _ _ _ HIs), decide_False, Nat.sub_0_r by done. naive_solver. }
        destruct (Nat.eqb_spec (calc_index (rdeg G ord u)) (calc_index (rdeg G ord u - 1))) as [He|He].
        - rewrite <- He. destruct (decide (w = u)) as [->|]; [rewrite Hbu|]; naive_solver.
        - rewrite inb_add, inb_remove. destruct (decide (w = u)) as [->|]; [rewrite Hbu|]; naive_solver. }
      split; cbn [fst snd].
      * intros w Hw Hwo Hwv. destruct (decide (w = u)) as [->|].
        -- rewrite lookup_insert. f_equal. rewrite decide_True by set_solver. done.
        -- rewrite lookup_insert_ne, (ui_deg _ _ _ _ HIs) by done. do 2 f_equal.
           repeat case_decide; set_solver.
      * intros d w. rewrite Hb, (ui_b _ _ _ _ HIs). destruct (decide (w = u)) as [->|Hwu].
        -- rewrite (decide_True (P := u ∈ l1 ++ [u])) by set_solver. naive_solver.
        -- assert (w ∈ l1 ++ [u] ↔ w ∈ l1) as Hd by set_solver.
           assert ((if decide (w ∈ l1 ++ [u]) then 1 else 0) = (if decide (w ∈ l1) then 1 else 0)) as ->.
           { repeat case_decide; naive_solver. }
           naive_solver.
  - exists s. split; [done|].
    assert (∀ w, vtx G w → w ∉ ord → w ≠ v →
      rdeg G ord w - (if decide (w ∈ nbrs G v) then 1 else 0) = rdeg G (ord ++ [v]) w) as Hr.
    { intros w Hw Hwo Hwv. pose proof (rdeg_snoc G ord v w Hwf Hw Hvo) as Hrd.
      case_decide as Hd.
      - apply Hin, (wf_adj_sym _ Hwf) in Hd. rewrite bool_decide_true in Hrd by done. lia.
      - rewrite bool_decide_false in Hrd; [lia|]. intros ?. apply Hd, Hin. by apply (wf_adj_sym _ Hwf). }
    split.
    + intros w Hw Hwo. assert (w ∉ ord ∧ w ≠ v) as [? ?] by set_solver.
      rewrite (ui_deg _ _ _ _ HIs), Hr by done. done.
    + intros d w. rewrite (ui_b _ _ _ _ HIs), not_elem_of_app, not_elem_of_cons. split.
      * intros (? & ? & ? & ->). rewrite Hr by done. split_and!; try done. by apply not_elem_of_nil.
      * intros (? & (? & ? & _) & ->). rewrite Hr by done. done.
Qed.

End with_iter.

(** ** The main loop, for every graph on which the neighbour loop keeps the remaining degrees *)
Section main.
Context `{HI : HashIter}.
Context (G : graph) (Hwf : weak_wf G) (Hdeg : ∀ w, vtx G w → degree G w = rdeg G [] w).
Context (Hupd : ∀ ord v core deg b, vtx G v → v ∉ ord → (∀ u, is_Some (core !! u) ↔ u ∈ ord) →
  upd_inv G ord v [] (deg, b) → ∃ s, fold_res (dgn_update core) (nbrs G v) (deg, b) = Ok s ∧
    (∀ w, vtx G w → w ∉ ord ++ [v] → s.1 !! w = Some (rdeg G (ord ++ [v]) w)) ∧
    (∀ d w, inb s.2 d w ↔ vtx G w ∧ w ∉ ord ++ [v] ∧ d = calc_index (rdeg G (ord ++ [v]) w))).

(** State of the main loop. *)
Record dgn_inv (s : dgn_st) : Prop := {
  gi_nodup : NoDup (dgn_order s);
  gi_vtx : ∀ v, v ∈ dgn_order s → vtx G v;
  gi_deg : ∀ w, vtx G w → w ∉ dgn_order s → dgn_deg s !! w = Some (rdeg G (dgn_order s) w);
  gi_b : ∀ d w, inb (dgn_buckets s) d w ↔
      vtx G w ∧ w ∉ dgn_order s ∧ d = calc_index (rdeg G (dgn_order s) w);
  gi_core : ∀ v, is_Some (dgn_core s !! v) ↔ v ∈ dgn_order s;
  gi_mono : ∀ i j u v cu cv, dgn_order s !! i = Some u → dgn_order s !! j = Some v →
      dgn_core s !! u = Some cu → dgn_core s !! v = Some cv → i ≤ j → cu ≤ cv;
  gi_num : ∀ v c, dgn_core s !! v = Some c → c ≤ dgn_num s;
  gi_num_last : (dgn_order s = [] ∧ dgn_num s = 0) ∨ ∃ v, dgn_core s !! v = Some (dgn_num s);
  gi_upper : ∀ i v c, dgn_order s !! i = Some v → dgn_core s !! v = Some c →
      calc_index (rdeg G (take i (dgn_order s)) v) ≤ c;
  gi_lower : ∀ i v c, dgn_order s !! i = Some v → dgn_core s !! v = Some c →
      ∃ i0, i0 ≤ i ∧ ∀ w, vtx G w → w ∉ take i0 (dgn_order s) →
        c ≤ calc_index (rdeg G (take i0 (dgn_order s)) w);
  gi_min : ∀ i v w, dgn_order s !! i = Some v → vtx G w → w ∉ take i (dgn_order s) →
      calc_index (rdeg G (take i (dgn_order s)) v) ≤ calc_index (rdeg G (take i (dgn_order s)) w);
}.

Lemma dgn_init_spec :
  dgn_inv (DgnSt [] (dgn_init G).1 ∅ (dgn_init G).2 0).
Proof using Hwf Hdeg.
  clear Hupd.
  assert (∀ vs, (∀ w, w ∈ vs → (foldl (λ s v, (<[v := degree G v]> s.1, map_upd ∅ (λ X, {[v]} ∪ X) (calc_index (degree G v)) s.2))
      (∅ : gmap N nat, ∅ : gmap nat (gset N)) vs).1 !! w = Some (degree G w)) ∧
     ∀ d w, inb (foldl (λ s v, (<[v := degree G v]> s.1, map_upd ∅ (λ X, {[v]} ∪ X) (calc_index (degree G v)) s.2))
      (∅ : gmap N nat, ∅ : gmap nat (gset N)) vs).2 d w ↔ w ∈ vs ∧ d = calc_index (degree G w)) as HH.
  { induction vs as [|v vs [IH1 IH2]] using rev_ind.
    - split; [set_solver|]. intros d w. split; [intros (X & HX & _); cbn in HX; rewrite lookup_empty in HX; done|set_solver].
    - rewrite !foldl_app. cbn. split.
      + intros w Hw. destruct (decide (w = v)) as [->|]; [by rewrite lookup_insert|].
        rewrite lookup_insert_ne by done. apply IH1. set_solver.
      + intros d w. rewrite inb_add, IH2, elem_of_app, elem_of_list_singleton. naive_solver. }
  destruct (HH (vertices G)) as [H1 H2].
  split; cbn.
  - constructor.
  - set_solver.
  - intros w Hw _. rewrite <- Hdeg by done. apply H1. by apply (ww_vertices _ Hwf).
  - intros d w. unfold dgn_init. rewrite H2, (ww_vertices _ Hwf). split.
    + intros [Hw ->]. rewrite Hdeg by done. set_solver.
    + intros (Hw & _ & ->). rewrite Hdeg by done. done.
  - intros v. rewrite lookup_empty. split; [by intros [? ?]|set_solver].
  - done.
  - intros v c. by rewrite lookup_empty.
  - by left.
  - done.
  - done.
  - done.
Qed.

Lemma dgn_step_spec s t :
  dgn_inv s → length (dgn_order s) < num_vertices G →
  ∃ s' v, dgn_step G s t = Ok s' ∧ dgn_order s' = dgn_order s ++ [v] ∧ dgn_inv s'.
Proof.
  intros HIv Hlen. unfold dgn_step.
  assert (∃ w, vtx G w ∧ w ∉ dgn_order s) as (w0 & Hw0 & Hw0o).
  { destruct (decide (Forall (λ w, w ∈ dgn_order s) (vertices G))) as [Hall|Hn].
    - exfalso. rewrite Forall_forall in Hall.
      assert (length (vertices G) ≤ length (dgn_order s)); [|rewrite (ww_num_vertices _ Hwf) in Hlen; lia].
      apply submseteq_length, NoDup_submseteq; [apply (ww_vertices_nodup _ Hwf)|done].
    - apply not_Forall_Exists in Hn; [|apply _]. apply Exists_exists in Hn as (w & ? & ?).
      exists w. split; [by apply (ww_vertices _ Hwf)|done]. }
  destruct (dgn_find_ok (dgn_buckets s)) as (d & X & -> & HX & Hne & Hmin).
  { exists (calc_index (rdeg G (dgn_order s) w0)), w0. by apply (gi_b _ HIv). }
  cbn [mbind res_bind]. rewrite HX. cbn [unwrap mbind res_bind].
  destruct (hash_iter t X) as [|v rest] eqn:EX.
  { exfalso. apply set_choose_L in Hne as [x Hx]. rewrite <- (elem_of_hash_iter t), EX in Hx. set_solver. }
  cbn [head unwrap mbind res_bind].
  assert (v ∈ X) as HvX by (rewrite <- (elem_of_hash_iter t), EX; set_solver).
  assert (inb (dgn_buckets s) d v) as Hvb by (exists X; done).
  apply (gi_b _ HIv) in Hvb as (Hv & Hvo & Hd).
  destruct (nbrs_weak G v Hwf Hv) as (-> & _). cbn [mbind res_bind].
  destruct (Hupd (dgn_order s) v (dgn_core s) (dgn_deg s) (<[d:=X ∖ {[v]}]> (dgn_buckets s)) Hv Hvo (gi_core _ HIv))
    as (r & -> & Hr1 & Hr2).
  { split; cbn [fst snd].
    - intros w Hw Hwo _. rewrite (gi_deg _ HIv) by done. f_equal. rewrite decide_False by set_solver. lia.
    - intros d' w. rewrite (inb_pop _ _ _ _ _ _ HX), (gi_b _ HIv), decide_False, Nat.sub_0_r by set_solver.
      split; [|naive_solver]. intros [(? & ? & ->) Hn]. split_and!; [done|done| |done]. intros ->. naive_solver. }
  cbn [mbind res_bind]. eexists _, v. split; [done|]. split; [done|].
  assert (∀ x c, <[v := dgn_num s `max` d]> (dgn_core s) !! x = Some c ↔
     (x = v ∧ c = dgn_num s `max` d) ∨ (x ≠ v ∧ dgn_core s !! x = Some c)) as Hcore.
  { intros x c. destruct (decide (x = v)) as [->|]; [rewrite lookup_insert|rewrite lookup_insert_ne by done]; naive_solver. }
  assert (∀ i x, (dgn_order s ++ [v]) !! i = Some x ↔
     (dgn_order s !! i = Some x ∧ i < length (dgn_order s)) ∨ (i = length (dgn_order s) ∧ x = v)) as Hlk.
  { intros i x. rewrite lookup_app_Some, list_lookup_singleton_Some. split.
    - intros [Hi|(? & ? & ->)]; [left; split; [done|by eapply lookup_lt_Some]|right; split; [lia|done]].
    - intros [[? ?]|[-> ->]]; [by left|]. right. split; [lia|]. split; [lia|done]. }
  assert (∀ i x, dgn_order s !! i = Some x → x ≠ v) as Hnv.
  { intros i x Hi ->. apply Hvo. by eapply elem_of_list_lookup_2. }
  assert (∀ i, i ≤ length (dgn_order s) → take i (dgn_order s ++ [v]) = take i (dgn_order s)) as Htk.
  { intros i Hi. by apply take_app_le. }
  split; cbn [dgn_order dgn_deg dgn_core dgn_buckets dgn_num].
  - apply NoDup_app. split_and!; [apply HIv| |apply NoDup_singleton]. set_solver.
  - intros x Hx. apply elem_of_app in Hx as [?|Hx%elem_of_list_singleton]; [by apply (gi_vtx _ HIv)|by subst].
  - done.
  - done.
  - intros x. rewrite elem_of_app, elem_of_list_singleton, <- (gi_core _ HIv). split.
    + intros [c Hc%Hcore]; destruct Hc as [[? _]|[? ?]]; [by right|left; eauto].
    + intros [[c Hc]|Hx]; [|subst x].
      * destruct (decide (x = v)) as [->|]; eexists; apply Hcore; [left; done|right; eauto].
      * eexists; apply Hcore; left; done.
  - intros i j a b ca cb [[Ha ?]|[-> ->]]%Hlk [[Hb ?]|[-> ->]]%Hlk Hca%Hcore Hcb%Hcore Hij.
    + pose proof (Hnv _ _ Ha). pose proof (Hnv _ _ Hb).
      destruct Hca as [[? _]|[_ Hca]]; [done|]. destruct Hcb as [[? _]|[_ Hcb]]; [done|].
      by apply (gi_mono _ HIv i j a b).
    + pose proof (Hnv _ _ Ha). destruct Hca as [[? _]|[_ Hca]]; [done|].
      destruct Hcb as [[_ ->]|[? _]]; [|done]. apply (gi_num _ HIv) in Hca. lia.
    + lia.
    + destruct Hca as [[_ ->]|[? _]]; [|done]. destruct Hcb as [[_ ->]|[? _]]; [|done]. lia.
  - intros x c [[-> ->]|[_ Hc]]%Hcore; [lia|]. apply (gi_num _ HIv) in Hc. lia.
  - right. exists v. apply Hcore. by left.
  - intros i x c [[Hx Hi]|[-> ->]]%Hlk Hc%Hcore.
    + pose proof (Hnv _ _ Hx). destruct Hc as [[? _]|[_ Hc]]; [done|].
      rewrite Htk by lia. by apply (gi_upper _ HIv).
    + destruct Hc as [[_ ->]|[? _]]; [|done]. rewrite take_app. rewrite <- Hd. lia.
  - intros i x c [[Hx Hi]|[-> ->]]%Hlk Hc%Hcore.
    + pose proof (Hnv _ _ Hx). destruct Hc as [[? _]|[_ Hc]]; [done|].
      destruct (gi_lower _ HIv i x c Hx Hc) as (i0 & ? & Hlow). exists i0. split; [done|].
      rewrite Htk by lia. done.
    + destruct Hc as [[_ ->]|[? _]]; [|done].
      destruct (decide (d ≤ dgn_num s)) as [Hle|Hgt].
      * rewrite Nat.max_l by lia. destruct (gi_num_last _ HIv) as [[Hnil Hz]|[y Hy]].
        { exists 0. split; [lia|]. intros. rewrite Hz. lia. }
        assert (∃ j, dgn_order s !! j = Some y) as [j Hj].
        { apply elem_of_list_lookup. apply (gi_core _ HIv). eauto. }
        destruct (gi_lower _ HIv j y _ Hj Hy) as (i0 & ? & Hlow). apply lookup_lt_Some in Hj.
        exists i0. split; [lia|]. rewrite Htk by lia. done.
      * rewrite Nat.max_r by lia. exists (length (dgn_order s)). split; [done|].
        rewrite take_app. intros w Hw Hwo. apply (Hmin _ w), (gi_b _ HIv). done.
  - intros i x w [[Hx Hi]|[-> ->]]%Hlk Hw.
    + rewrite Htk by lia. by apply (gi_min _ HIv).
    + rewrite take_app. intros Hwo. rewrite <- Hd. apply (Hmin _ w), (gi_b _ HIv). done.
Qed.

Lemma dgn_loop_spec n : ∀ k s,
  dgn_inv s → length (dgn_order s) + n ≤ num_vertices G →
  ∃ s', fold_res (dgn_step G) (seq k n) s = Ok s' ∧ dgn_inv s' ∧ length (dgn_order s') = length (dgn_order s) + n.
Proof.
  induction n as [|n IH]; intros k s HIv Hlen; cbn [seq fold_res].
  - exists s. split_and!; [done|done|lia].
  - destruct (dgn_step_spec s k HIv) as (s1 & v & -> & Ho & HIv1); [lia|]. cbn [mbind res_bind].
    assert (length (dgn_order s1) = length (dgn_order s) + 1) as Hl1 by (rewrite Ho, app_length; done).
    destruct (IH (S k) s1 HIv1) as (s2 & -> & HIv2 & Hl2); [lia|]. exists s2. split_and!; [done|done|lia].
Qed.

Lemma degeneracy_gen :
  ∃ s, degeneracy G = Ok (dgn_lower (dgn_num s), dgn_num s, reverse (dgn_order s), dgn_core s) ∧
    dgn_inv s ∧ (∀ v, v ∈ dgn_order s ↔ vtx G v).
Proof.
  destruct (dgn_loop_spec (num_vertices G) 0 _ dgn_init_spec) as (s & Hs & HIv & Hlen); [cbn; lia|].
  exists s. unfold degeneracy. rewrite Hs. cbn. split; [done|]. split; [done|].
  intros v. split; [apply (gi_vtx _ HIv)|]. intros Hv%(ww_vertices _ Hwf). cbn in Hlen.
  assert (dgn_order s ≡ₚ vertices G) as ->; [|done].
  apply submseteq_Permutation_length_eq; [rewrite <- (ww_num_vertices _ Hwf); lia|].
  apply NoDup_submseteq; [apply HIv|]. intros x Hx. by apply (ww_vertices _ Hwf), (gi_vtx _ HIv).
Qed.

End main.

Section with_iter.
Context `{HI : HashIter}.
Context (G : graph) (Hwf : graph_wf G).

Lemma degeneracy_inv (Hloop : loopless G) :
  ∃ s, degeneracy G = Ok (dgn_lower (dgn_num s), dgn_num s, reverse (dgn_order s), dgn_core s) ∧
    dgn_inv G s ∧ (∀ v, v ∈ dgn_order s ↔ vtx G v).
Proof using Hwf.
  apply degeneracy_gen; [by apply graph_wf_weak| |].
  - intros w Hw. destruct (nbrs_spec G w Hwf Hw) as (_ & _ & _ & Hd). rewrite Hd by apply Hloop. unfold rdeg.
    f_equal. clear. induction (nbrs G w) as [|x l IH]; [done|]. rewrite filter_cons_True by set_solver. by f_equal.
  - by apply dgn_update_spec.
Qed.

(** Left neighbours in the reversed order. *)
Lemma before_reverse (l : list N) u v i :
  NoDup l → l !! i = Some v → before (reverse l) u v → u ∉ take i l ∧ u ≠ v.
Proof.
  intros Hnd Hi (a & b & Ha & Hb & Hab). unfold pos in *.
  pose proof (lookup_lt_Some _ _ _ Ha) as La. pose proof (lookup_lt_Some _ _ _ Hb) as Lb.
  rewrite reverse_length in La, Lb.
  rewrite reverse_lookup in Ha, Hb by done.
  pose proof (NoDup_lookup _ _ _ _ Hnd Hi Hb) as ->. split.
  - intros (j & Hj & Hjl)%elem_of_take. pose proof (NoDup_lookup _ _ _ _ Hnd Ha Hj). lia.
  - intros ->. pose proof (NoDup_lookup _ _ _ _ Hnd Ha Hb). lia.
Qed.

Lemma left_degree_le ord i v l :
  NoDup ord → ord !! i = Some v → vtx G v →
  NoDup l → (∀ u, u ∈ l → adj G v u ∧ before (reverse ord) u v) → length l ≤ rdeg G (take i ord) v.
Proof.
  intros Hnd Hi Hv Hl Hin. unfold rdeg. apply submseteq_length, NoDup_submseteq; [done|].
  intros u Hu. destruct (Hin u Hu) as [Ha Hb]. rewrite elem_of_list_filter.
  destruct (nbrs_spec G v Hwf Hv) as (_ & _ & Hn & _). rewrite Hn. split; [|done].
  by eapply before_reverse.
Qed.

End with_iter.
