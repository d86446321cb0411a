(** Counting lemmas about the main loop of [DTFGraph::domset]: how often a vertex is an in-neighbour
    of a vertex chosen by the outer loop, and what that says about the size of the result. *)
From Verif Require Import Base Spec M_Graph M_Iterators M_EditGraph M_Operations M_Algorithms M_OrdGraph M_Domset M_DTF
  S_Graph P_EditGraph P_EditGraph2 P_Graph P_Iterators P_Approx P_DTF P_DTF2 P_DTF3 P_DTF4 P_DTF5.

(** ** Counting, for an arbitrary relation *)
Section count.
Context (hit : N → N → Prop) `{!RelDecision hit}.

Definition hcount (S : gset N) (z : N) : nat := size (filter (hit z) S).

Lemma hcount_add (S : gset N) v z : v ∉ S → hcount ({[v]} ∪ S) z = (if decide (hit z v) then 1 else 0) + hcount S z.
Proof.
  intros Hv. unfold hcount. destruct (decide (hit z v)) as [Hh|Hh].
  - assert (filter (hit z) ({[v]} ∪ S) = {[v]} ∪ filter (hit z) S) as ->.
    { apply set_eq. intros x. rewrite elem_of_filter, !elem_of_union, elem_of_filter, elem_of_singleton. naive_solver. }
    rewrite size_union, size_singleton; [done|]. apply disjoint_singleton_l. rewrite elem_of_filter. naive_solver.
  - assert (filter (hit z) ({[v]} ∪ S) = filter (hit z) S) as ->; [|done].
    apply set_eq. intros x. rewrite !elem_of_filter, elem_of_union, elem_of_singleton. naive_solver.
Qed.

Lemma hcount_0 z : hcount ∅ z = 0.
Proof. unfold hcount. apply size_empty_iff. intros x. rewrite elem_of_filter. set_solver. Qed.

(** [S]: the vertices chosen by the outer loop, [D]: the result, [I x]: the in-neighbours of [x]. *)
Lemma approx_size (S D X : gset N) (I : N → gset N) (c w : nat) : S ⊆ D →
  (∀ z, z ∉ D → hcount S z ≤ c) → (∀ z, z ∈ S → hcount S z ≤ c) → (∀ z, z ∈ D → z ∉ S → hcount S z = Datatypes.S c) →
  (∀ z v, v ∈ D → hit z v → z ∈ I v) → (∀ x, x ∈ D ∨ x ∈ X → size (I x) ≤ w) →
  (∀ v, v ∈ S → ∃ x z, x ∈ X ∧ (z = x ∨ z ∈ I x) ∧ (z = v ∨ hit z v)) →
  size S ≤ size X * ((w + 1) * Datatypes.S c) ∧ size D ≤ size X * ((w + 1) * (Datatypes.S c + w)).
Proof.
  intros HSD Hout Hsc Hdom HI Hw HX.
  set (N1 := λ x, {[x]} ∪ I x).
  assert (size S ≤ size X * ((w + 1) * Datatypes.S c)) as HS.
  { set (Z := set_fold (λ x Z, N1 x ∪ Z) (∅ : gset N) X).
    assert (∀ z, z ∈ Z ↔ ∃ x, x ∈ X ∧ z ∈ N1 x) as HZ.
    { intros z. unfold Z. revert z. apply (set_fold_ind_L (λ Z X, ∀ z, z ∈ Z ↔ ∃ x, x ∈ X ∧ z ∈ N1 x)).
      { intros z. split; [intros ?%elem_of_empty; done|intros (x & ?%elem_of_empty & _); done]. }
      intros x X' Z' _ IH z. rewrite elem_of_union, IH. split.
      - intros [Hz|(y & Hy & Hz)]; [exists x|exists y]; (split; [|done]); [by apply elem_of_union_l, elem_of_singleton|by apply elem_of_union_r].
      - intros (y & [->%elem_of_singleton|Hy]%elem_of_union & Hz); [by left|right; eauto]. }
    assert (size Z ≤ size X * (w + 1)) as HZs.
    { apply (size_cover Z X N1); [intros z Hz; by apply HZ|]. intros x Hx. unfold N1.
      rewrite size_union_alt, size_singleton.
      assert (size (I x ∖ {[x]}) ≤ size (I x)) as H1 by (apply subseteq_size; set_solver).
      specialize (Hw x (or_intror Hx)). lia. }
    assert (size S ≤ size Z * Datatypes.S c) as HSZ.
    { apply (size_cover S Z (λ z, filter (λ v, v = z ∨ hit z v) S)).
      - intros v Hv. destruct (HX v Hv) as (x & z & Hx & Hzx & Hzv). exists z. split.
        + apply HZ. exists x. split; [done|]. unfold N1. destruct Hzx as [->|?]; [by apply elem_of_union_l, elem_of_singleton|by apply elem_of_union_r].
        + apply elem_of_filter. split; [|done]. destruct Hzv as [->|?]; auto.
      - intros z _. destruct (decide (z ∈ S)) as [Hz|Hz].
        + etrans; [apply (subseteq_size _ ({[z]} ∪ filter (hit z) S))|].
          { intros v [[->|?] ?]%elem_of_filter; [set_solver|]. apply elem_of_union_r, elem_of_filter. done. }
          rewrite size_union_alt, size_singleton.
          assert (size (filter (hit z) S ∖ {[z]}) ≤ hcount S z) as H1 by (apply subseteq_size; set_solver).
          specialize (Hsc z Hz). lia.
        + assert (hcount S z ≤ Datatypes.S c) as H1.
          { destruct (decide (z ∈ D)) as [Hd|Hd]; [by rewrite Hdom|]. specialize (Hout z Hd). lia. }
          etrans; [|exact H1]. apply subseteq_size. intros v [[->|?] ?]%elem_of_filter; [done|]. by apply elem_of_filter. }
    nia. }
  split; [done|].
  assert (size D * Datatypes.S c ≤ size S * (Datatypes.S c + w)) as HD.
  { assert (size (D ∖ S) * Datatypes.S c ≤ size S * w) as H1.
    { apply (double_count hit).
      - intros z [Hz Hn]%elem_of_difference. pose proof (Hdom z Hz Hn) as HH. unfold hcount in HH. lia.
      - intros v Hv. etrans; [|apply (Hw v); left; by apply HSD]. apply subseteq_size.
        intros z [Hz _]%elem_of_filter. apply HI; [by apply HSD|done]. }
    assert (size D ≤ size S + size (D ∖ S)) as H2.
    { rewrite <- size_union_alt. apply subseteq_size. intros z Hz. destruct (decide (z ∈ S)); set_solver. }
    nia. }
  apply (Nat.mul_le_mono_pos_r _ _ (Datatypes.S c)); [lia|]. nia.
Qed.
End count.

(** ** The main loop *)
Section with_iter.
Context `{HashIter}.
Context (G : graph) (Hwf : graph_wf G) (g : dtfgraph) (Hinv : aug_inv G g).
Let Hg := ai_wf G g Hinv.
Context (r cutoff : nat) (Hr : r ≤ df_depth g).

(** The in-neighbours of weight at most [r]. *)
Definition in_set (v : N) : gset N :=
  match df_weighted g v r with Ok ps => list_to_set ps.*1 | _ => ∅ end.
Definition hitr (z v : N) : Prop := z ∈ in_set v.
Global Instance hitr_dec : RelDecision hitr.
Proof. intros z v. unfold hitr. apply _. Defined.

Lemma df_weighted_exact v : vtx G v →
  ∃ ps, df_weighted g v r = Ok ps ∧ NoDup ps.*1 ∧ ∀ u k, (u, k) ∈ ps ↔ ∃ i, k = S i ∧ i < r ∧ arc g i u v.
Proof using Hinv Hr Hwf.
  intros Hv. unfold df_weighted. apply (ai_vtx G g Hinv) in Hv.
  assert (∀ ks, NoDup ks → (∀ k, k ∈ ks → 1 ≤ k ≤ df_depth g) → ∃ ls,
    mapM (M:=res) (λ r, l ← df_in_at g v r; Ok ((λ u, (u, r)) <$> (l : list N))) ks = Ok ls ∧ NoDup (concat ls).*1 ∧
    ∀ u k, (u, k) ∈ concat ls ↔ k ∈ ks ∧ ∃ i, k = S i ∧ arc g i u v) as HH.
  { induction ks as [|k ks IH]; intros Hnd Hk; [exists []; cbn; split_and!; [done|constructor|set_solver]|].
    apply NoDup_cons in Hnd as [Hnk Hnd].
    destruct IH as (ls & Hls & Hndl & HI); [done|set_solver|]. destruct k as [|k]; [specialize (Hk 0); set_solver by lia|].
    destruct (in_at_spec g v k Hg Hv) as (l & Hl & Hndk & HL); [specialize (Hk (S k)); set_solver by lia|].
    exists (((λ u, (u, S k)) <$> l) :: ls). cbn. rewrite Hl. cbn [mbind res_bind]. rewrite Hls. cbn [mbind res_bind].
    split; [done|]. split.
    - rewrite fmap_app, <- list_fmap_compose. apply NoDup_app. split_and!; [|intros u Hu Hu'|done].
      + assert (fst ∘ (λ u : N, (u, S k)) <$> l = l) as ->; [|done]. clear. induction l; cbn; congruence.
      + apply elem_of_list_fmap in Hu as (u' & -> & Hu%HL). cbn in Hu'. apply elem_of_list_fmap in Hu' as ([u'' k'] & E & Hin).
        cbn in E. subst u''. apply HI in Hin as (Hk' & i & -> & Hi). assert (i = k) as -> by exact (ai_disj G g Hinv _ _ _ _ Hi Hu). done.
    - intros u j. rewrite elem_of_app, HI, elem_of_cons. split.
      + intros [(w & [= -> ->] & Hw%HL)%elem_of_list_fmap|(? & ?)]; [split; [by left|eauto]|split; [by right|done]].
      + intros [[->|Hj] (i & E & Hi)]; [left|right; eauto]. injection E as <-. apply elem_of_list_fmap. exists u. split; [done|by apply HL]. }
  destruct (HH (seq 1 r)) as (ls & Hls & Hnd & HI). { apply NoDup_seq. } { intros k Hk%elem_of_seq. lia. }
  rewrite Hls. cbn [mbind res_bind]. eexists. split; [done|]. split; [done|]. intros u k. rewrite HI, elem_of_seq. split.
  - intros (Hk & i & -> & Hi). exists i. split; [done|]. split; [lia|done].
  - intros (i & -> & Hi & Ha). split; [lia|eauto].
Qed.

Lemma in_set_spec v z : vtx G v → z ∈ in_set v ↔ ∃ i, i < r ∧ arc g i z v.
Proof using Hinv Hr Hwf.
  intros Hv. unfold in_set. destruct (df_weighted_exact v Hv) as (ps & -> & _ & Hps). rewrite elem_of_list_to_set, elem_of_list_fmap. split.
  - intros ([u k] & -> & Hin). apply Hps in Hin as (i & -> & ? & ?). eauto.
  - intros (i & Hi & Ha). exists (z, S i). split; [done|]. apply Hps. eauto.
Qed.

(** What the counters mean; [S] is the set of the vertices chosen by the outer loop. *)
Record dc_inv (S : gset N) (st : dd_state) : Prop := {
  dci_sub : S ⊆ dd_dom st;
  dci_zero : ∀ v, v ∈ dd_dom st → dd_dist st !! v = Some 0;
  dci_cnt : ∀ z c, dd_cnt st !! z = Some c → c = hcount hitr S z;
  dci_out : ∀ z, z ∉ dd_dom st → hcount hitr S z ≤ cutoff;
  dci_scat : ∀ z, z ∈ S → hcount hitr S z ≤ cutoff;
  dci_dom : ∀ z, z ∈ dd_dom st → z ∉ S → hcount hitr S z = Datatypes.S cutoff;
}.

Lemma relax_zero m v k m' : ds_relax m v k = Ok m' → ∀ z, m !! z = Some 0 → m' !! z = Some 0.
Proof.
  unfold ds_relax. intros (d & Hd%unwrap_ok & [= <-])%bind_ok z Hz. destruct (decide (z = v)) as [->|Hne].
  - rewrite lookup_insert. assert (d = 0) as -> by congruence. done.
  - by rewrite lookup_insert_ne.
Qed.
Lemma fold_zero l : ∀ m m', fold_res (λ m (q : N * nat), ds_relax m q.1 q.2) l m = Ok m' → ∀ z, m !! z = Some 0 → m' !! z = Some 0.
Proof.
  induction l as [|q l IH]; intros m m' Hf z Hz; [by injection Hf as <-|]. cbn [fold_res] in Hf. apply bind_ok in Hf as (m1 & Hq & Hf).
  eapply IH; [exact Hf|]. by eapply relax_zero.
Qed.

Lemma dd_update_fold l : ∀ st st', fold_res (dd_update g r cutoff) l st = Ok st' → NoDup l.*1 → (∀ u, u ∈ l.*1 → u ∉ dd_dom st) →
  (∀ v, v ∈ dd_dom st → dd_dist st !! v = Some 0) →
  (∀ v, v ∈ dd_dom st' → dd_dist st' !! v = Some 0) ∧
  (∀ z c, dd_cnt st' !! z = Some c → z ∉ l.*1 → dd_cnt st !! z = Some c) ∧
  (∀ z c, dd_cnt st' !! z = Some c → z ∈ l.*1 → ∃ c0, c = S c0 ∧ dd_cnt st !! z = Some c0) ∧
  (∀ z, z ∈ dd_dom st' ↔ z ∈ dd_dom st ∨ z ∈ l.*1 ∧ ∃ c, dd_cnt st !! z = Some c ∧ cutoff < S c).
Proof.
  induction l as [|[u k] l IH]; intros st st' Hf Hnd Hout Hz0.
  - injection Hf as <-. split_and!; [done|done|intros z c _ []%elem_of_nil|]. intros z. split; [by left|]. by intros [?|[[]%elem_of_nil _]].
  - cbn [fold_res] in Hf. apply bind_ok in Hf as (st1 & Hu & Hf). cbn [fmap list_fmap fst] in Hnd, Hout.
    apply NoDup_cons in Hnd as [Hul Hnd].
    assert ((∀ v, v ∈ dd_dom st1 → dd_dist st1 !! v = Some 0) ∧ (∃ c, dd_cnt st !! u = Some c ∧ dd_cnt st1 = <[u := S c]> (dd_cnt st) ∧
      dd_dom st1 = if decide (cutoff < S c) then {[u]} ∪ dd_dom st else dd_dom st)) as (Hz1 & c & Hc & Hc1 & Hd1).
    { unfold dd_update in Hu. apply bind_ok in Hu as (c & Hc%unwrap_ok & Hu). apply bind_ok in Hu as (dd & Hdd & Hu).
      cbn [dd_dom dd_dist dd_cnt] in Hu. pose proof (relax_zero _ _ _ _ Hdd) as Hrz.
      rewrite (bool_decide_false (u ∈ dd_dom st)) in Hu by (apply Hout; left). cbn [negb] in Hu. rewrite andb_true_r in Hu.
      destruct (Nat.ltb_spec cutoff (S c)) as [Hlt|Hge].
      - apply bind_ok in Hu as (ps & _ & Hu). apply bind_ok in Hu as (dd' & Hdd' & Hu). injection Hu as <-. cbn. split.
        + intros v Hv. apply (fold_zero _ _ _ Hdd'). destruct (decide (v = u)) as [->|Hne]; [apply lookup_insert|].
          rewrite lookup_insert_ne by done. apply Hrz, Hz0. apply elem_of_union in Hv as [?%elem_of_singleton|?]; [by destruct Hne|done].
        + exists c. split; [done|]. split; [done|]. by rewrite decide_True.
      - injection Hu as <-. cbn. split; [auto|]. exists c. split; [done|]. split; [done|]. rewrite decide_False; [done|lia]. }
    destruct (IH st1 st' Hf Hnd) as (H1 & H2 & H3 & H4).
    { intros z Hz Hin. rewrite Hd1 in Hin. destruct (decide _); [apply elem_of_union in Hin as [->%elem_of_singleton|Hin]; [done|]|].
      - eapply Hout; [|exact Hin]. by right.
      - eapply Hout; [|exact Hin]. by right. }
    { exact Hz1. }
    cbn [fmap list_fmap fst]. split_and!.
    + exact H1.
    + intros z c' Hz Hn. apply not_elem_of_cons in Hn as [Hne Hn]. apply H2 in Hz; [|done]. rewrite Hc1, lookup_insert_ne in Hz by done. done.
    + intros z c' Hz [->|Hzl]%elem_of_cons.
      * apply H2 in Hz; [|done]. rewrite Hc1, lookup_insert in Hz. injection Hz as <-. eauto.
      * destruct (H3 z c' Hz Hzl) as (c0 & -> & Hc0). exists c0. split; [done|]. rewrite Hc1, lookup_insert_ne in Hc0; [done|].
        intros ->. done.
    + intros z. rewrite H4, Hd1. rewrite elem_of_cons. split.
      * intros [Hz|(Hzl & c' & Hc' & Hlt)].
        -- destruct (decide (cutoff < S c)); [apply elem_of_union in Hz as [->%elem_of_singleton|Hz]|]; eauto 10.
        -- right. split; [by right|]. exists c'. split; [|done]. rewrite Hc1, lookup_insert_ne in Hc'; [done|]. by intros ->.
      * intros [Hz|([->|Hzl] & c' & Hc' & Hlt)].
        -- left. destruct (decide _); [by apply elem_of_union_r|done].
        -- left. rewrite Hc in Hc'. injection Hc' as <-. rewrite decide_True by done. by apply elem_of_union_l, elem_of_singleton.
        -- right. split; [done|]. exists c'. split; [|done]. rewrite Hc1, lookup_insert_ne; [done|]. by intros ->.
Qed.

Lemma dd_relax_zero l v : ∀ m m', fold_res (λ m (p : N * nat), du ← unwrap (m !! p.1); ds_relax m v (p.2 + du)) l m = Ok m' →
  ∀ z, m !! z = Some 0 → m' !! z = Some 0.
Proof.
  induction l as [|q l IH]; intros m m' Hf z Hz; [by injection Hf as <-|]. cbn [fold_res] in Hf. apply bind_ok in Hf as (m1 & Hq & Hf).
  apply bind_ok in Hq as (du & _ & Hq). eapply IH; [exact Hf|]. by eapply relax_zero.
Qed.

(** The distance of [v] after the first inner loop. *)
Lemma dd_relax_fold v l : ∀ m m', fold_res (λ m (p : N * nat), du ← unwrap (m !! p.1); ds_relax m v (p.2 + du)) l m = Ok m' →
  (∀ u, u ∈ l.*1 → u ≠ v) →
  (∀ d, m !! v = Some d → ∃ d', m' !! v = Some d' ∧ d' ≤ d) ∧
  (∀ u k, (u, k) ∈ l → m !! u = Some 0 → ∃ d, m' !! v = Some d ∧ d ≤ k).
Proof.
  induction l as [|[u k] l IH]; intros dd dd' Hf Hne.
  - injection Hf as <-. split; [eauto|]. intros u k Hu. by apply elem_of_nil in Hu.
  - cbn [fold_res fst snd] in Hf. apply bind_ok in Hf as (dd1 & Hu & Hf). apply bind_ok in Hu as (du & Hdu%unwrap_ok & Hu).
    unfold ds_relax in Hu. apply bind_ok in Hu as (d & Hd%unwrap_ok & Hu). injection Hu as Hu.
    cbn [fmap list_fmap fst] in Hne. destruct (IH dd1 dd' Hf) as [H1 H2]; [intros z Hz; apply Hne; by right|].
    assert (dd1 !! v = Some (d `min` (k + du))) as Hv1 by (rewrite <- Hu; apply lookup_insert).
    destruct (H1 _ Hv1) as (d' & Hd2 & Hle). split.
    + intros e He. simplify_eq. exists d'. split; [done|lia].
    + intros z j [[= -> ->]|Hz]%elem_of_cons Hz0.
      * simplify_eq. exists d'. split; [done|lia].
      * apply (H2 z j Hz). rewrite <- Hu, lookup_insert_ne; [done|]. intros <-. apply (Hne v); [|done].
        right. apply elem_of_list_fmap. by exists (v, j).
Qed.

Lemma dc_step S0 pre st v st' : vtx G v → fd_inv G r pre st → dc_inv S0 st → dd_step g r cutoff st v = Ok st' → ∃ S1, dc_inv S1 st'.
Proof using Hinv Hr Hwf.
  intros Hv Hfd [Hsub Hzero Hcnt Hout Hsc Hdom] Hs. unfold dd_step in Hs.
  destruct (df_weighted_exact v Hv) as (ps & Hps & Hndps & Hin). rewrite Hps in Hs. cbn [mbind res_bind] in Hs.
  apply bind_ok in Hs as (dd & Hdd & Hs). apply bind_ok in Hs as (dv & Hdv%unwrap_ok & Hs).
  assert (∀ u, u ∈ ps.*1 → u ≠ v) as Hps_ne.
  { intros u Hu. apply elem_of_list_fmap in Hu as ([u' k] & -> & (i & _ & _ & Ha)%Hin). intros E. cbn in E. subst. exact (ai_noloop G g Hinv _ _ Ha). }
  destruct (dd_relax_fold v _ _ _ Hdd Hps_ne) as [HR1 HR2]. pose proof (dd_relax_zero _ _ _ _ Hdd) as HR0.
  destruct (Nat.leb_spec dv r) as [Hle|Hgt].
  { injection Hs as <-. exists S0. split; cbn [dd_dom dd_dist dd_cnt]; auto. }
  assert (v ∉ dd_dom st) as HvD.
  { intros Hz%Hzero. destruct (HR1 _ Hz) as (d' & ? & ?). simplify_eq. lia. }
  assert (v ∉ S0) as HvS by set_solver.
  assert (∀ u, u ∈ ps.*1 → u ∉ dd_dom st ∧ u ≠ v) as HuD.
  { intros u Hu. split; [|by apply Hps_ne]. apply elem_of_list_fmap in Hu as ([u' k] & -> & Hu). cbn.
    intros Hz%Hzero. destruct (HR2 u' k Hu Hz) as (d & Hd & ?). apply Hin in Hu as (i & -> & ? & _). simplify_eq. lia. }
  destruct (dd_update_fold _ _ _ Hs Hndps) as (H1 & H2 & H3 & H4).
  { intros u Hu. cbn [dd_dom]. destruct (HuD u Hu). set_solver. }
  { cbn [dd_dom dd_dist]. intros u Hu. destruct (decide (u = v)) as [->|Hne]; [apply lookup_insert|]. rewrite lookup_insert_ne by done.
    apply HR0, Hzero. set_solver. }
  cbn [dd_dom dd_cnt] in H1, H2, H3, H4.
  assert (∀ z, hitr z v ↔ z ∈ ps.*1) as Hhk.
  { intros z. unfold hitr, in_set. rewrite Hps. apply elem_of_list_to_set. }
  assert (∀ z, hcount hitr ({[v]} ∪ S0) z = (if decide (hitr z v) then 1 else 0) + hcount hitr S0 z) as Hh.
  { intros z. by apply hcount_add. }
  assert (∀ z, hitr z v → z ∉ dd_dom st ∧ z ≠ v ∧ ∃ c, dd_cnt st !! z = Some c ∧ c = hcount hitr S0 z) as Hhit.
  { intros z Hz. apply Hhk in Hz. destruct (HuD z Hz) as [? ?]. split_and!; [done|done|].
    destruct (proj2 (fi_cnt _ _ _ _ Hfd z)) as [c Hc].
    { apply elem_of_list_fmap in Hz as ([z' k] & -> & (i & _ & _ & Ha)%Hin). apply (ai_vtx G g Hinv). by eapply arc_tail. }
    exists c. split; [done|]. by apply Hcnt. }
  exists ({[v]} ∪ S0). split.
  - intros z Hz. apply H4. left. set_solver.
  - exact H1.
  - intros z c Hc. rewrite Hh. destruct (decide (hitr z v)) as [Hz|Hz].
    + destruct (H3 z c Hc) as (c0 & -> & Hc0); [by apply Hhk|]. by rewrite (Hcnt z c0 Hc0).
    + apply H2 in Hc; [|by rewrite <- Hhk]. rewrite (Hcnt z c Hc). done.
  - intros z Hz. rewrite H4 in Hz. rewrite Hh. destruct (decide (hitr z v)) as [Hv'|Hv'].
    + destruct (Hhit z Hv') as (_ & _ & c & Hc & Heq). destruct (decide (cutoff < S c)) as [Hlt|Hge]; [|lia].
      exfalso. apply Hz. right. split; [by apply Hhk|eauto].
    + cbn. apply Hout. intros Hin'. apply Hz. left. set_solver.
  - intros z Hz. rewrite Hh. apply elem_of_union in Hz as [->%elem_of_singleton|Hz].
    + rewrite decide_False; [by apply Hout|]. intros Hvv. by destruct (Hhit v Hvv) as (_ & ? & _).
    + rewrite decide_False; [by apply Hsc|]. intros (Hn & _)%Hhit. apply Hn. by apply Hsub.
  - intros z Hz Hn. rewrite Hh. rewrite H4 in Hz. destruct (decide (hitr z v)) as [Hv'|Hv'].
    + destruct (Hhit z Hv') as (HzD & Hzv & c & Hc & Heq).
      destruct Hz as [Hz|(_ & c' & Hc' & Hlt)]; [set_solver|]. simplify_eq.
      specialize (Hout z HzD). lia.
    + destruct Hz as [Hz|[Hz%Hhk _]]; [|done]. cbn. apply Hdom; set_solver.
Qed.

Lemma dc_loop order st : order ≡ₚ df_vertices g → fold_res (dd_step g r cutoff) order
    (DdState ∅ (foldl (λ m v, <[v := r + 1]> m) ∅ order) (foldl (λ m v, <[v := 0]> m) ∅ order)) = Ok st →
  fd_inv G r order st ∧ ∃ S0, dc_inv S0 st.
Proof using Hinv Hr Hwf.
  intros Ho Hf. assert (∀ v, v ∈ order ↔ vtx G v) as Hv.
  { intros v. rewrite Ho, df_vertices_spec. apply (ai_vtx G g Hinv). }
  edestruct (fold_res_inv (dd_step g r cutoff) (λ pre st, fd_inv G r pre st ∧ ∃ S0, dc_inv S0 st) order) as (st' & Hf' & HI);
    [| |rewrite Hf in Hf'; injection Hf' as <-; exact HI].
  - split; [split; cbn [dd_dom dd_dist dd_cnt]; [split|..]|exists ∅; split; cbn [dd_dom dd_dist dd_cnt]].
    + intros v. rewrite foldl_weights, lookup_empty, <- Hv. destruct (decide (v ∈ order)); split; intros HH; [done|by eexists|by destruct HH|done].
    + intros v k. rewrite foldl_weights, lookup_empty. destruct (decide (v ∈ order)); [|done]. intros [= <-]. lia.
    + intros v. rewrite foldl_weights, lookup_empty, <- Hv. destruct (decide (v ∈ order)); split; intros HH; [done|by eexists|by destruct HH|done].
    + set_solver.
    + set_solver.
    + set_solver.
    + set_solver.
    + intros z c. rewrite foldl_weights, lookup_empty, hcount_0. destruct (decide _); congruence.
    + intros z _. rewrite hcount_0. lia.
    + set_solver.
    + set_solver.
  - intros l1 v l2 st1 Heq [Hi [S0 Hc]]. assert (vtx G v) as Hvv by (apply Hv; rewrite Heq; set_solver).
    destruct (dd_step_inv G Hwf g Hinv r cutoff Hr l1 st1 v Hvv Hi) as (st2 & Hs & Hi2). exists st2. split; [done|]. split; [done|].
    exact (dc_step S0 l1 st1 v st2 Hvv Hi Hc Hs).
Qed.
End with_iter.
