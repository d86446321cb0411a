(** Proofs about the iterator state machines. *)
From Verif Require Import Base Spec M_Graph M_Iterators M_EditGraph S_Graph S_Multi P_EditGraph P_EditGraph2 P_Graph.

Lemma drains_det {S A} (next : S → res (option A * S)) s l l' :
  drains next s l → drains next s l' → l = l'.
Proof.
  intros H. revert l'. induction H as [s s' Hn|s s' x l Hn _ IH]; intros l' H';
    inversion H' as [? ? Hn'|? ? ? ? Hn' Hd']; subst; rewrite Hn in Hn'; simplify_eq; [done|].
  f_equal. auto.
Qed.

Lemma mapM_res_ok {A B} (f : A → res B) l k :
  mapM f l = Ok k ↔ Forall2 (λ x y, f x = Ok y) l k.
Proof.
  split.
  - revert k. induction l as [|x l IH]; intros k; cbn.
    + intros [= <-]. constructor.
    + intros (y & Hy & (ys & Hys & [= <-])%bind_ok)%bind_ok. constructor; auto.
  - induction 1 as [|x y l k Hxy _ IH]; cbn; [done|].
    rewrite Hxy. cbn. rewrite IH. done.
Qed.

Section edge_iterator.
Context (G : graph).

Definition pass_list (v : N) (l : list N) : list (N * N) :=
  pair v <$> filter (λ u, ¬ (u < v)%N) l.

(** Lists of edges produced when [it] remains for [v] and [vs] are still to come. *)
Inductive rest_edges : N → list N → list N → list (N * N) → Prop :=
  | re_nil v it : rest_edges v it [] (pass_list v it)
  | re_cons v it v' it' vs l :
      neighbours G v' = Ok it' → rest_edges v' it' vs l →
      rest_edges v it (v' :: vs) (pass_list v it ++ l).

Lemma ei_scan_some v it u it' :
  ei_scan v it = (Some u, it') → pass_list v it = (v, u) :: pass_list v it'.
Proof.
  unfold pass_list. induction it as [|x it IH]; [done|]. cbn [ei_scan].
  destruct (N.ltb_spec x v); rewrite filter_cons.
  - intros Hs. rewrite decide_False by naive_solver. auto.
  - intros [= -> ->]. rewrite decide_True by lia. done.
Qed.

Lemma ei_scan_none v it it' : ei_scan v it = (None, it') → pass_list v it = [] ∧ it' = [].
Proof.
  unfold pass_list. induction it as [|x it IH]; [cbn; naive_solver|]. cbn [ei_scan].
  destruct (N.ltb_spec x v); rewrite filter_cons; [|done].
  intros Hs. rewrite decide_False by naive_solver. auto.
Qed.

Lemma ei_loop_drains v it vs l :
  rest_edges v it vs l → drains (ei_next G) (EdgeIt vs (Some v) (Some it)) l.
Proof.
  revert v it l. induction vs as [|v' vs IH]; intros v it l Hre.
  - inversion Hre; subst. clear Hre. remember (length it) as n eqn:Hn.
    revert it Hn. induction n as [n IHn] using lt_wf_ind. intros it ->.
    destruct (ei_scan v it) as [[u|] it'] eqn:E.
    + rewrite (ei_scan_some _ _ _ _ E). econstructor; cbn; [by rewrite E|].
      apply (IHn (length it')); [|done].
      clear -E. induction it as [|x it IH]; cbn in *; [done|].
      destruct (N.ltb_spec x v); [specialize (IH E); lia|]. simplify_eq. lia.
    + destruct (ei_scan_none _ _ _ E) as [-> ->]. econstructor; cbn. by rewrite E.
  - inversion Hre as [|? ? ? it1 ? l' Hnb Hre']; subst. clear Hre.
    remember (length it) as n eqn:Hn.
    revert it Hn. induction n as [n IHn] using lt_wf_ind. intros it ->.
    destruct (ei_scan v it) as [[u|] it'] eqn:E.
    + rewrite (ei_scan_some _ _ _ _ E). cbn. econstructor; cbn; [by rewrite E|].
      apply (IHn (length it')); [|done].
      clear -E. induction it as [|x it IH]; cbn in *; [done|].
      destruct (N.ltb_spec x v); [specialize (IH E); lia|]. simplify_eq. lia.
    + destruct (ei_scan_none _ _ _ E) as [-> ->]. cbn.
      pose proof (IH _ _ _ Hre') as Hd.
      (* the first call of next continues in the next vertex *)
      inversion Hd as [s s' Hnx|s s' x l'' Hnx Hd']; subst; cbn in Hnx.
      * eapply drains_nil. cbn. rewrite E, Hnb. cbn. exact Hnx.
      * eapply drains_cons; [cbn; rewrite E, Hnb; cbn; exact Hnx|done].
Qed.

Lemma edges_rest v it vs l ls :
  neighbours G v = Ok it →
  Forall2 (λ v y, (neighbours G v ≫= λ Nv : list N, Ok (pass_list v Nv)) = Ok y) vs ls →
  l = pass_list v it ++ concat ls →
  rest_edges v it vs l.
Proof.
  intros Hv Hls ->. revert v it Hv. induction Hls as [|v' y vs ls Hy Hls IH]; intros v it Hv; cbn.
  - rewrite app_nil_r. constructor.
  - apply bind_ok in Hy as (it' & Hn & [= <-]). econstructor; [done|].
    by apply IH.
Qed.

(** Draining the EdgeIterator gives the list [edges G]. *)
Lemma edges_drains l :
  edges G = Ok l → ∃ s, ei_new G = Ok s ∧ drains (ei_next G) s l.
Proof.
  unfold edges, ei_new, ei_advance. intros (ls & Hls & [= <-])%bind_ok.
  apply mapM_res_ok in Hls. cbn.
  inversion Hls as [|v y vs ls' Hy Hls']; subst; cbn.
  - eexists; split; [done|]. by econstructor.
  - apply bind_ok in Hy as (it & Hn & [= <-]). rewrite Hn. cbn. eexists; split; [done|].
    apply ei_loop_drains. by eapply edges_rest.
Qed.

Definition gtr_list (v : N) (l : list N) : list vertex_or_edge :=
  (λ u, VE_E (v, u)) <$> filter (λ u, (v < u)%N) l.

Inductive rest_mixed : N → list N → list N → list vertex_or_edge → Prop :=
  | rm_nil v it : rest_mixed v it [] (gtr_list v it)
  | rm_cons v it v' it' vs l :
      neighbours G v' = Ok it' → rest_mixed v' it' vs l →
      rest_mixed v it (v' :: vs) (gtr_list v it ++ VE_V v' :: l).

Lemma mi_scan_some v it u it' :
  mi_scan v it = (Some u, it') →
  gtr_list v it = VE_E (v, u) :: gtr_list v it' ∧ length it' < length it.
Proof.
  unfold gtr_list. induction it as [|x it IH]; [done|]. cbn [mi_scan length].
  destruct (N.ltb_spec v x); rewrite filter_cons.
  - intros [= -> ->]. rewrite decide_True by lia. split; [done|lia].
  - intros Hs. rewrite decide_False by lia. destruct (IH Hs). split; [done|lia].
Qed.

Lemma mi_scan_none v it it' : mi_scan v it = (None, it') → gtr_list v it = [] ∧ it' = [].
Proof.
  unfold gtr_list. induction it as [|x it IH]; [cbn; naive_solver|]. cbn [mi_scan].
  destruct (N.ltb_spec v x); rewrite filter_cons; [done|].
  intros Hs. rewrite decide_False by lia. auto.
Qed.

Lemma mi_drains v it vs l :
  rest_mixed v it vs l → drains (mi_next G) (MixedIt vs true (Some v) (Some it)) l.
Proof.
  revert v it l. induction vs as [|v' vs IH]; intros v it l Hre.
  - inversion Hre; subst. clear Hre. remember (length it) as n eqn:Hn.
    revert it Hn. induction n as [n IHn] using lt_wf_ind. intros it ->.
    destruct (mi_scan v it) as [[u|] it'] eqn:E.
    + destruct (mi_scan_some _ _ _ _ E) as [-> ?]. econstructor; cbn; [by rewrite E|].
      by apply (IHn (length it')).
    + destruct (mi_scan_none _ _ _ E) as [-> ->]. econstructor. unfold mi_next; cbn.
      rewrite E. cbn. done.
  - inversion Hre as [|? ? ? it1 ? l' Hnb Hre']; subst. clear Hre.
    remember (length it) as n eqn:Hn.
    revert it Hn. induction n as [n IHn] using lt_wf_ind. intros it ->.
    destruct (mi_scan v it) as [[u|] it'] eqn:E.
    + destruct (mi_scan_some _ _ _ _ E) as [-> ?]. cbn. econstructor; cbn; [by rewrite E|].
      by apply (IHn (length it')).
    + destruct (mi_scan_none _ _ _ E) as [-> ->]. cbn. econstructor.
      * unfold mi_next; cbn. rewrite E. unfold mi_advance; cbn. rewrite Hnb. cbn. done.
      * by apply IH.
Qed.

Lemma mixed_rest v it vs l ls :
  neighbours G v = Ok it →
  Forall2 (λ v y, (neighbours G v ≫= λ Nv : list N, Ok (VE_V v :: gtr_list v Nv)) = Ok y) vs ls →
  l = gtr_list v it ++ concat ls →
  rest_mixed v it vs l.
Proof.
  intros Hv Hls ->. revert v it Hv. induction Hls as [|v' y vs ls Hy Hls IH]; intros v it Hv; cbn.
  - rewrite app_nil_r. constructor.
  - apply bind_ok in Hy as (it' & Hn & [= <-]). econstructor; [done|].
    by apply IH.
Qed.

Lemma mixed_drains l :
  vertices_and_edges G = Ok l → ∃ s, mi_new G = Ok s ∧ drains (mi_next G) s l.
Proof.
  unfold vertices_and_edges, mi_new, mi_advance. intros (ls & Hls & [= <-])%bind_ok.
  apply mapM_res_ok in Hls. cbn.
  inversion Hls as [|v y vs ls' Hy Hls']; subst; cbn.
  - eexists; split; [done|]. by econstructor.
  - apply bind_ok in Hy as (it & Hn & [= <-]). rewrite Hn. cbn. eexists; split; [done|].
    econstructor; [done|]. cbn. apply mi_drains. by eapply mixed_rest.
Qed.

(** ** The lists for well-formed graphs *)
Lemma mapM_neigh_ok {B} (f : N → list N → B) (vs : list N) :
  graph_wf G → (∀ v, v ∈ vs → vtx G v) →
  ∃ ls, mapM (M:=res) (λ v, Nv ← neighbours G v; Ok (f v Nv)) vs = Ok ls ∧
    Forall2 (λ v y, ∃ l, neighbours G v = Ok l ∧ NoDup l ∧ (∀ u, u ∈ l ↔ adj G v u) ∧ y = f v l) vs ls.
Proof.
  intros Hwf. induction vs as [|v vs IH]; intros Hvs; cbn.
  - eexists; split; [done|constructor].
  - destruct (wf_neighbours _ Hwf v) as (l & Hn & Hnd & Hl & _); [apply Hvs; set_solver|].
    rewrite Hn. cbn. destruct IH as (ls & -> & HF); [set_solver|]. cbn.
    eexists; split; [done|]. constructor; [|done]. eauto.
Qed.

Lemma edges_spec :
  graph_wf G →
  ∃ l, edges G = Ok l ∧ NoDup l ∧ (∀ u v, (u, v) ∈ l ↔ (u <= v)%N ∧ adj G u v) ∧
       length l = num_edges G.
Proof.
  intros Hwf. unfold edges.
  destruct (mapM_neigh_ok (λ v Nv, pair v <$> filter (λ u, ¬ (u < v)%N) Nv) (vertices G) Hwf)
    as (ls & -> & HF).
  { intros v. apply (wf_vertices _ Hwf). }
  cbn. eexists; split; [done|].
  assert (∀ u v, (u, v) ∈ concat ls ↔ (u <= v)%N ∧ adj G u v ∧ u ∈ vertices G) as Hin.
  { clear -HF. induction HF as [|v y vs ls (l & _ & _ & Hl & ->) _ IH]; intros a b; cbn.
    - set_solver.
    - rewrite elem_of_app, IH, elem_of_list_fmap, elem_of_cons. split.
      + intros [(u & [= -> ->] & [? ?]%elem_of_list_filter)|?]; [|naive_solver].
        split_and!; [lia|by apply Hl|by left].
      + intros (? & ? & [->|?]); [left|right; done]. exists b. split; [done|].
        rewrite elem_of_list_filter, Hl. split; [lia|done]. }
  assert (NoDup (concat ls)) as HND.
  { pose proof (wf_vertices_nodup _ Hwf) as Hvn. clear -HF Hvn.
    assert (∀ e, e ∈ concat ls → e.1 ∈ vertices G) as H1.
    { clear -HF. induction HF as [|v y vs ls (l & _ & _ & Hl & ->) _ IH]; cbn; [set_solver|].
      intros e. rewrite elem_of_app, elem_of_cons, elem_of_list_fmap.
      intros [(? & -> & _)|?]; [by left|right; auto]. }
    revert Hvn H1. induction HF as [|v y vs ls (l & _ & Hnl & Hl & ->) HF IH]; cbn; [intros; constructor|].
    intros [Hv Hvs]%NoDup_cons H1. apply NoDup_app. split_and!.
    - apply NoDup_fmap_2; [intros ? ? [=]; done|]. by apply NoDup_filter.
    - intros e. rewrite elem_of_list_fmap. intros (u & -> & _) Hc. apply Hv.
      assert (∀ e, e ∈ concat ls → e.1 ∈ vs) as H2.
      { clear -HF. induction HF as [|v y vs ls (l & _ & _ & Hl & ->) _ IH]; cbn; [set_solver|].
        intros e. rewrite elem_of_app, elem_of_cons, elem_of_list_fmap.
        intros [(? & -> & _)|?]; [by left|right; auto]. }
      apply (H2 _ Hc).
    - apply IH; [done|].
      clear -HF. induction HF as [|v y vs ls (l & _ & _ & Hl & ->) _ IH]; cbn; [set_solver|].
      intros e. rewrite elem_of_app, elem_of_cons, elem_of_list_fmap.
      intros [(? & -> & _)|?]; [by left|right; auto]. }
  assert (∀ u v, (u, v) ∈ concat ls ↔ (u <= v)%N ∧ adj G u v) as Hin'.
  { intros u v. rewrite Hin. split; [naive_solver|]. intros [? ?]. split_and!; [done..|].
    apply (wf_vertices _ Hwf). by eapply wf_adj_vtx. }
  split_and!; [done|done|].
  destruct (wf_num_edges _ Hwf) as (E & HE & ->).
  transitivity (length (elements E)); [|done]. apply Permutation_length, NoDup_Permutation.
  - done.
  - apply NoDup_elements.
  - intros [u v]. by rewrite elem_of_elements, HE.
Qed.

Lemma mixed_spec :
  graph_wf G →
  ∃ l, vertices_and_edges G = Ok l ∧ NoDup l ∧ (∀ v, VE_V v ∈ l ↔ vtx G v) ∧
       (∀ u v, VE_E (u, v) ∈ l ↔ (u < v)%N ∧ adj G u v).
Proof.
  intros Hwf. unfold vertices_and_edges.
  destruct (mapM_neigh_ok (λ v Nv, VE_V v :: ((λ u, VE_E (v, u)) <$> filter (λ u, (v < u)%N) Nv))
     (vertices G) Hwf) as (ls & -> & HF).
  { intros v. apply (wf_vertices _ Hwf). }
  cbn. eexists; split; [done|].
  assert ((∀ v, VE_V v ∈ concat ls ↔ v ∈ vertices G) ∧
          (∀ u v, VE_E (u, v) ∈ concat ls ↔ (u < v)%N ∧ adj G u v ∧ u ∈ vertices G) ∧
          (NoDup (vertices G) → NoDup (concat ls))) as (HV & HE & HN).
  { clear -HF. induction HF as [|v y vs ls (l & _ & Hnl & Hl & ->) _ (IH1 & IH2 & IH3)]; cbn.
    - split_and!; [set_solver..|intros _; constructor].
    - split_and!.
      + intros x. rewrite elem_of_cons, elem_of_app, elem_of_list_fmap, IH1, elem_of_cons.
        split; [intros [[= ->]|[(? & ? & _)|?]]; auto; done|naive_solver].
      + intros a b. rewrite elem_of_cons, elem_of_app, elem_of_list_fmap, IH2, elem_of_cons.
        split.
        * intros [?|[(u & [= -> ->] & [? ?]%elem_of_list_filter)|?]]; [done| |naive_solver].
          split_and!; [done|by apply Hl|by left].
        * intros (? & ? & [->|?]); [|by right; right]. right; left. exists b. split; [done|].
          by rewrite elem_of_list_filter, Hl.
      + intros [Hv Hvs]%NoDup_cons. apply NoDup_cons. split.
        * rewrite elem_of_app, elem_of_list_fmap, IH1. intros [(? & ? & _)|?]; done.
        * apply NoDup_app. split_and!; [|intros e|by apply IH3].
          { apply NoDup_fmap_2; [intros ? ? [=]; done|]. by apply NoDup_filter. }
          rewrite elem_of_list_fmap. intros (u & -> & _). rewrite IH2. naive_solver. }
  split_and!.
  - apply HN, Hwf.
  - intros v. rewrite HV. apply (wf_vertices _ Hwf).
  - intros u v. rewrite HE. split; [naive_solver|]. intros [? ?]. split_and!; [done..|].
    apply (wf_vertices _ Hwf). by eapply wf_adj_vtx.
Qed.

End edge_iterator.

(** [edges] when neighbour lists may repeat items. *)
Lemma edges_weak G : weak_wf G →
  ∃ es, edges G = Ok es ∧ ∀ u v, (u, v) ∈ es ↔ (u <= v)%N ∧ adj G u v.
Proof.
  intros Hwf. unfold edges.
  assert (∀ vs, (∀ v, v ∈ vs → vtx G v) → ∃ ls,
    mapM (M:=res) (λ v, Nv ← neighbours G v; Ok (pair v <$> filter (λ u, ¬ (u < v)%N) (Nv : list N))) vs = Ok ls ∧
    ∀ u v, (u, v) ∈ concat ls ↔ u ∈ vs ∧ (u <= v)%N ∧ adj G u v) as HH.
  { induction vs as [|w vs IH]; intros Hvs; [exists []; split; [done|]; cbn; set_solver|].
    destruct (ww_neighbours _ Hwf w) as (l & Hl & Hin); [apply Hvs; set_solver|].
    destruct IH as (ls & Els & Hls); [intros v Hv; apply Hvs; set_solver|].
    cbn. rewrite Hl. cbn. rewrite Els. cbn. eexists; split; [done|]. intros u v. cbn. rewrite elem_of_app, Hls, elem_of_list_fmap, elem_of_cons. split.
    - intros [(x & [= -> ->] & [Hx1 Hx2%Hin]%elem_of_list_filter)|(? & ? & ?)]; [|naive_solver]. split_and!; [by left|lia|done].
    - intros ([->|Hu] & Hle & Ha); [|by right]. left. exists v. split; [done|]. apply elem_of_list_filter. split; [lia|by apply Hin]. }
  destruct (HH (vertices G)) as (ls & -> & Hls); [intros v; apply (ww_vertices _ Hwf)|]. cbn. eexists; split; [done|].
  intros u v. rewrite Hls, (ww_vertices _ Hwf). split; [naive_solver|]. intros [? Ha]. split_and!; [by eapply (ww_adj_vtx _ Hwf)|done..].
Qed.
