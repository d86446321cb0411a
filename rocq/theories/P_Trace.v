(** Counting maps, bit sets over a context, and the contexts of the trace oracle. *)
From Verif Require Import Base Spec M_Graph M_Iterators M_EditGraph M_Algorithms M_OrdGraph M_DegenGraph M_Linear M_Trace
  S_Graph S_Linear S_Reach P_EditGraph P_Graph P_Iterators P_Degeneracy P_OrdGraph P_OrdGraph2 P_DegenGraph2 P_Linear.

(** ** Maps that count the items of a list *)
Section tally.
Context {K : Type} `{Countable K}.
Implicit Types (m : gmap K nat) (es : list (K * nat)) (l : list K).

Definition expand es : list K := mjoin ((λ p, replicate p.2 p.1) <$> es).
Definition tally m l : Prop := expand (map_to_list m) ≡ₚ l ∧ ∀ k, m !! k ≠ Some 0.

Lemma expand_perm es es' : es ≡ₚ es' → expand es ≡ₚ expand es'.
Proof. intros Hp. unfold expand. by rewrite Hp. Qed.
Global Instance expand_proper : Proper ((≡ₚ) ==> (≡ₚ)) expand.
Proof. intros es es'. apply expand_perm. Qed.
Lemma expand_cons k n es : expand ((k, n) :: es) = replicate n k ++ expand es.
Proof. done. Qed.
Lemma expand_app es es' : expand (es ++ es') = expand es ++ expand es'.
Proof. induction es as [|[k n] es IH]; [done|]. cbn [app]. rewrite !expand_cons, IH. by rewrite app_assoc. Qed.
Lemma tally_perm m l l' : tally m l → l ≡ₚ l' → tally m l'.
Proof. intros [H1 H2] Hp. split; [by rewrite H1|done]. Qed.
Lemma tally_empty : tally ∅ [].
Proof. split; [by rewrite map_to_list_empty|]. intros k. by rewrite lookup_empty. Qed.
Lemma tally_add m l k n : tally m l → 0 < n → tally (map_upd 0 (λ j, j + n) k m) (replicate n k ++ l).
Proof.
  intros [H1 H2] Hn. unfold map_upd. destruct (m !! k) as [j|] eqn:Ek; cbn [default].
  - split.
    + rewrite <- insert_delete_insert, map_to_list_insert by apply lookup_delete.
      rewrite expand_cons, <- H1. rewrite <- (map_to_list_delete m k j Ek). rewrite expand_cons.
      rewrite Nat.add_comm, replicate_add, <- app_assoc. done.
    + intros k'. destruct (decide (k = k')) as [<-|Hk]; [rewrite lookup_insert|by rewrite lookup_insert_ne].
      cbn. intros [= Hz]. lia.
  - split.
    + rewrite map_to_list_insert by done. rewrite expand_cons, H1. done.
    + intros k'. destruct (decide (k = k')) as [<-|Hk]; [rewrite lookup_insert|by rewrite lookup_insert_ne].
      cbn. intros [= Hz]. lia.
Qed.
Lemma tally_incr m l k : tally m l → tally (map_upd 0 (λ j, j + 1) k m) (k :: l).
Proof. intros Ht. apply (tally_add m l k 1); [done|lia]. Qed.
Lemma elem_of_expand es k : k ∈ expand es ↔ ∃ n, (k, n) ∈ es ∧ 0 < n.
Proof.
  unfold expand. rewrite elem_of_list_join. split.
  - intros (l & Hk & ([k' n] & -> & Hp)%elem_of_list_fmap). cbn in Hk. apply elem_of_replicate in Hk as [-> Hn]. exists n. split; [done|lia].
  - intros (n & Hp & Hn). exists (replicate n k). split; [apply elem_of_replicate; split; [done|lia]|]. apply elem_of_list_fmap. by exists (k, n).
Qed.
Lemma tally_elem m l k : tally m l → k ∈ l ↔ is_Some (m !! k).
Proof.
  intros [H1 H2]. rewrite <- H1, elem_of_expand. setoid_rewrite elem_of_map_to_list. split; [intros (n & ? & _); eauto|].
  intros [n Hn]. exists n. split; [done|]. destruct n; [by destruct (H2 k)|lia].
Qed.
Lemma tally_pos m l k n : tally m l → m !! k = Some n → 0 < n.
Proof. intros [_ H2] Hn. destruct n; [by destruct (H2 k)|lia]. Qed.
Lemma filter_replicate_eq (k : K) n : filter (λ x, x = k) (replicate n k) = replicate n k.
Proof. induction n as [|n IH]; [done|]. cbn [replicate]. rewrite filter_cons_True by done. by rewrite IH. Qed.
Lemma filter_none {A} (P : A → Prop) `{∀ x, Decision (P x)} (l : list A) : (∀ x, x ∈ l → ¬ P x) → filter P l = [].
Proof.
  induction l as [|x l IH]; intros Hl; [done|]. rewrite filter_cons_False by (apply Hl; set_solver). apply IH. set_solver.
Qed.
Lemma tally_lookup m l (k : K) n : tally m l → m !! k = Some n → n = length (filter (λ x, x = k) l).
Proof.
  intros [H1 H2] Hn. rewrite <- H1. rewrite <- (map_to_list_delete m k n Hn). rewrite expand_cons, filter_app, filter_replicate_eq.
  rewrite (filter_none _ (expand _)).
  - by rewrite app_nil_r, replicate_length.
  - intros x (n' & Hx & _)%elem_of_expand ->. apply elem_of_map_to_list in Hx. by rewrite lookup_delete in Hx.
Qed.
Lemma tally_count m l k : tally m l → default 0 (m !! k) = length (filter (λ x, x = k) l).
Proof.
  intros Ht. destruct (m !! k) as [n|] eqn:Ek; cbn; [by eapply tally_lookup|]. rewrite filter_none; [done|].
  intros x Hx ->. apply (tally_elem _ _ _ Ht) in Hx as [? ?]. congruence.
Qed.
Lemma map_iter_expand `{HI : HashIter} t m l : tally m l → expand (map_iter t m) ≡ₚ l.
Proof. intros [<- _]. apply expand_perm, map_iter_perm. Qed.
End tally.

Lemma tally_fold {K K'} `{Countable K, Countable K'} (f : K → K') (es : list (K * nat)) (m : gmap K' nat) (l : list K') :
  (∀ p, p ∈ es → 0 < p.2) → tally m l →
  tally (foldl (λ m p, map_upd 0 (λ k, k + p.2) (f p.1) m) m es) ((f <$> expand es) ++ l).
Proof.
  revert m l. induction es as [|[k n] es IH]; intros m l Hpos Ht; [done|]. cbn [foldl].
  eapply tally_perm; [apply IH; [set_solver|apply tally_add; [exact Ht|apply (Hpos (k, n)); set_solver]]|].
  cbn [fst snd]. rewrite expand_cons, fmap_app, fmap_replicate. rewrite !app_assoc. f_equiv. apply Permutation_app_comm.
Qed.
Lemma tally_map_iter {K K'} `{HashIter, Countable K, Countable K'} t (f : K → K') (m : gmap K nat) (l : list K) :
  tally m l → tally (foldl (λ m p, map_upd 0 (λ k, k + p.2) (f p.1) m) ∅ (map_iter t m)) (f <$> l).
Proof.
  intros Ht. eapply tally_perm; [apply tally_fold; [|apply tally_empty]|].
  - intros [k n] Hp. apply elem_of_map_iter in Hp. by eapply tally_pos.
  - rewrite app_nil_r. by rewrite (map_iter_expand t m l Ht).
Qed.
(** Renaming the keys injectively. *)
Lemma tally_rename {K K'} `{HashIter, Countable K, Countable K'} t (f : K → res K') (h : K → K') (m : gmap K nat) (l : list K) :
  tally m l → (∀ k, k ∈ l → f k = Ok (h k)) → (∀ k k', k ∈ l → k' ∈ l → h k = h k' → k = k') →
  ∃ m', fold_res (λ m p, s ← f p.1; Ok (<[s := p.2]> m)) (map_iter t m) (∅ : gmap K' nat) = Ok m' ∧ tally m' (h <$> l).
Proof.
  intros Ht Hf Hinj.
  assert (∀ k n, (k, n) ∈ map_iter t m → k ∈ l ∧ 0 < n) as Hk.
  { intros k n Hp%elem_of_map_iter. split; [|by eapply tally_pos]. eapply tally_elem; eauto. }
  destruct (fold_res_inv (λ m p, s ← f p.1; Ok (<[s := p.2]> m))
    (λ es (m' : gmap K' nat), tally m' (h <$> expand es) ∧ (∀ k', is_Some (m' !! k') → ∃ k n, (k, n) ∈ es ∧ k' = h k)) (map_iter t m) ∅) as (m' & Hm' & Ht' & _).
  - split; [apply tally_empty|]. intros k'. rewrite lookup_empty. by intros [].
  - intros es [k n] es' m' Hes [IH1 IH2]. assert ((k, n) ∈ map_iter t m) as Hin by (rewrite Hes; set_solver).
    destruct (Hk k n Hin) as [Hkl Hn]. cbn [fst snd]. rewrite Hf by done. cbn [mbind res_bind]. eexists. split; [done|]. split.
    + assert (m' !! h k = None) as Hnone.
      { apply eq_None_not_Some. intros (k1 & n1 & Hk1 & Heq)%IH2. assert ((k1, n1) ∈ map_iter t m) as Hin1 by (rewrite Hes; set_solver).
        assert (k = k1) as -> by (apply Hinj; [done|by apply (Hk k1 n1)|done]).
        pose proof (NoDup_map_iter_fst t m) as Hnd. rewrite Hes, fmap_app, fmap_cons in Hnd. apply NoDup_app in Hnd as (_ & Hd & _).
        apply (Hd k1); [apply elem_of_list_fmap; by exists (k1, n1)|]. cbn. set_solver. }
      eapply tally_perm; [pose proof (tally_add m' _ (h k) n IH1 Hn) as Hadd; unfold map_upd in Hadd; rewrite Hnone in Hadd; exact Hadd|].
      rewrite expand_app, fmap_app. cbn. rewrite app_nil_r, fmap_replicate. apply Permutation_app_comm.
    + intros k'. destruct (decide (k' = h k)) as [->|Hne]; [intros _; exists k, n; set_solver|].
      rewrite lookup_insert_ne by done. intros (k1 & n1 & ? & ?)%IH2. exists k1, n1. set_solver.
  - exists m'. split; [done|]. eapply tally_perm; [exact Ht'|]. by rewrite (map_iter_expand t m l Ht).
Qed.
Lemma sum_expand {K} `{Countable K} (P : K → Prop) `{∀ k, Decision (P k)} (es : list (K * nat)) r :
  foldl (λ r p, if bool_decide (P p.1) then r + p.2 else r) r es = r + length (filter P (expand es)).
Proof.
  revert r. induction es as [|[k n] es IH]; intros r; [cbn; lia|]. cbn [foldl fst snd]. rewrite IH, expand_cons, filter_app, app_length.
  assert (length (filter P (replicate n k)) = if bool_decide (P k) then n else 0) as ->.
  { clear. induction n as [|n IH]; [by case_bool_decide|]. cbn [replicate]. case_bool_decide.
    - rewrite filter_cons_True by done. cbn. by rewrite IH.
    - by rewrite filter_cons_False. }
  case_bool_decide; lia.
Qed.

(** ** Bit sets over a list without repetitions *)
Section bits.
Context (C : list N) (HC : NoDup C) (rn : gmap (list bool) nat).
Let c := SCtx C (og_index_map C) rn.
Lemma sc_index u i : sc_indices c !! u = Some i ↔ C !! i = Some u.
Proof. apply (og_index_map_spec C HC). Qed.
Lemma set_bit (f : N → bool) u i : C !! i = Some u →
  <[i := true]> (f <$> C) = (λ x, f x || bool_decide (x = u)) <$> C.
Proof.
  intros Hi. apply list_eq. intros j. destruct (decide (i = j)) as [<-|Hij].
  - rewrite list_lookup_insert by (rewrite fmap_length; by eapply lookup_lt_Some). rewrite list_lookup_fmap, Hi. cbn.
    rewrite bool_decide_eq_true_2 by done. by rewrite orb_true_r.
  - rewrite list_lookup_insert_ne by done. rewrite !list_lookup_fmap. destruct (C !! j) as [x|] eqn:Ej; [|done]. cbn.
    rewrite (bool_decide_eq_false_2 (x = u)); [by rewrite orb_false_r|]. intros ->. apply Hij. by eapply NoDup_lookup.
Qed.
Lemma to_bitset_spec s : sc_to_bitset c s = Ok ((λ x, bool_decide (x ∈ s)) <$> C).
Proof.
  unfold sc_to_bitset.
  destruct (fold_res_inv (λ bs u, match sc_indices c !! u with Some ix => _ ← assert_res (ix <? length bs); Ok (<[ix:=true]> bs) | None => Ok bs end)
    (λ s1 bs, bs = (λ x, bool_decide (x ∈ s1)) <$> C) s (replicate (length (sc_context c)) false)) as (bs & -> & ->).
  - cbn. symmetry. clear. induction C as [|x C' IH]; [done|]. cbn. by f_equal.
  - intros s1 u s2 bs _ ->. destruct (sc_indices c !! u) as [i|] eqn:Ei.
    + apply sc_index in Ei. rewrite fmap_length, (proj2 (Nat.ltb_lt _ _)) by (by eapply lookup_lt_Some). cbn. eexists. split; [done|].
      rewrite (set_bit _ u i Ei). apply list_fmap_ext. intros _ x _. rewrite <- bool_decide_or. apply bool_decide_ext. set_solver.
    + eexists. split; [done|]. apply list_fmap_ext. intros j x Hx. apply bool_decide_ext.
      assert (x ≠ u); [|set_solver]. intros ->. apply sc_index in Hx. congruence.
  - done.
Qed.
Lemma singleton_spec u : sc_singleton c u = Ok ((λ x, bool_decide (x = u)) <$> C).
Proof.
  pose proof (to_bitset_spec [u]) as Hb. unfold sc_to_bitset in Hb. cbn [fold_res] in Hb. unfold sc_singleton.
  destruct (sc_indices c !! u) as [i|].
  - destruct (i <? length (replicate (length (sc_context c)) false)); cbn [assert_res mbind res_bind] in *; [|done]. rewrite Hb. f_equal.
    apply list_fmap_ext. intros _ x _. apply bool_decide_ext. set_solver.
  - cbn [mbind res_bind] in Hb. rewrite Hb. f_equal. apply list_fmap_ext. intros _ x _. apply bool_decide_ext. set_solver.
Qed.
Lemma to_vecset_spec (f : N → bool) : sc_to_vecset c (f <$> C) = Ok (filter (λ x, f x = true) C).
Proof.
  unfold sc_to_vecset, iter_ones. cbn [sc_context c].
  assert (∀ C2 C1, C = C1 ++ C2 → mapM (λ ix, unwrap (C !! ix)) (filter (λ p : nat * bool, p.2 = true) (imap (λ i b, (length C1 + i, b)) (f <$> C2))).*1 =
    Ok (filter (λ x, f x = true) C2)) as HH; [|by apply (HH C [])].
  induction C2 as [|x C2 IH]; intros C1 HC12; [done|]. rewrite fmap_cons, imap_cons.
  specialize (IH (C1 ++ [x])). rewrite <- app_assoc in IH. specialize (IH HC12).
  assert (imap ((λ (i : nat) (b : bool), (length C1 + i, b)) ∘ S) (f <$> C2) = imap (λ i b, (length (C1 ++ [x]) + i, b)) (f <$> C2)) as Him.
  { apply imap_ext. intros i b _. unfold compose. rewrite app_length. cbn. f_equal. lia. }
  rewrite Him. destruct (f x) eqn:Ex.
  - rewrite filter_cons_True by done. rewrite (filter_cons_True _ x) by done. rewrite fmap_cons. cbn [mapM fst].
    rewrite Nat.add_0_r. assert (C !! length C1 = Some x) as -> by (rewrite HC12; by apply list_lookup_middle). cbn [unwrap mbind res_bind]. rewrite IH. done.
  - rewrite filter_cons_False by done. rewrite (filter_cons_False _ x) by (by rewrite Ex). done.
Qed.
Lemma bits_and_fmap (f h : N → bool) : bits_and (f <$> C) (h <$> C) = (λ x, f x && h x) <$> C.
Proof. unfold bits_and. clear HC c. induction C as [|x C' IH]; [done|]. cbn. by rewrite IH. Qed.
End bits.
