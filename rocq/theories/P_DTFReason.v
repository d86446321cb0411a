(** Why an augmentation has its arcs, and the shape of the augmentations of forests. *)
From Verif Require Import Base Spec M_Graph M_Iterators M_EditGraph M_Operations M_Algorithms M_OrdGraph M_DTF
  S_Graph S_DTF P_EditGraph P_EditGraph2 P_Graph P_DTF P_DTF2 P_DTF3 P_DTF4 P_DTF6.

(** Every arc of weight above 1 follows from two arcs whose weights add up to its weight; if it is fraternal, there is
    no arc of smaller weight in the other direction. *)
Definition reasoned (g : dtfgraph) : Prop := ∀ d x y, arc g (S d) x y →
  (∃ i j z, i + j = d ∧ arc g i x z ∧ arc g j z y) ∨
  ((∀ k, k ≤ d → ¬ arc g k y x) ∧ ∃ i j z, i + j = d ∧ arc g i x z ∧ arc g j y z).

Section with_iter.
Context `{HashIter}.

Lemma augment_loop_reasoned G od fuel g g' depth : graph_wf G → od_ok od → aug_inv G g → below g → reasoned g →
  df_augment_loop od fuel g depth = Ok g' → reasoned g'.
Proof.
  intros Hwf Hod. revert g. induction fuel as [|fuel IH]; intros g Hinv Hb Hre; [done|]. cbn [df_augment_loop].
  destruct (Nat.ltb_spec (df_depth g) depth) as [Hlt|Hge]; [|by intros [= <-]].
  pose proof (ai_depth G g Hinv). destruct (df_depth g) as [|d] eqn:Hd; [lia|].
  destruct (augment_step_spec G Hwf od g d Hod Hinv Hd) as (g1 & -> & Hinv1 & Hd1 & Hs1 & Hn1 & _ & Hr1). cbn [mbind res_bind].
  apply IH; [done| |].
  - intros i x y [Hx%Hb|[-> _]]%Hn1; lia.
  - intros e x y Ha. assert (∀ k a b, k ≤ d → arc g1 k a b → arc g k a b) as Hold.
    { intros k a b Hk [?|[-> _]]%Hn1; [done|lia]. }
    pose proof (Hn1 _ _ _ Ha) as [Hx|[E Hn]].
    + destruct (Hre e x y Hx) as [(i & j & z & ? & ? & ?)|(Hno & i & j & z & ? & ? & ?)].
      * left. exists i, j, z. auto.
      * right. split; [|exists i, j, z; auto]. intros k Hk Hyx. apply (Hno k Hk). apply Hb in Hx. apply Hold; [lia|done].
    + injection E as ->. destruct (Hr1 _ _ _ Ha) as [Hx|[(i & j & z & ? & ? & ?)|(Hno & i & j & z & ? & ? & ?)]].
      * destruct Hn. eauto.
      * left. exists i, j, z. auto.
      * right. split; [|exists i, j, z; auto]. intros k Hk Hyx. apply Hno. exists k. by apply Hold.
Qed.

Lemma reach_reasoned G g : graph_wf G → loopless G → dtf_reach G g → reasoned g.
Proof.
  intros HG Hl. assert (∀ g d f g', dtf_reach G g → reasoned g → df_augment g d f = Ok g' → reasoned g') as Hstep.
  { intros g0 d f g' Hr IH Hok. destruct (reach_closed G g0 HG Hl Hr) as (Hinv & Hb & _).
    eapply (augment_loop_reasoned G _ _ g0 g' d HG (od_deep f)); [done|done|done|exact Hok]. }
  induction 1 as [g Hg|g d f g' Hr IH Hok|g r D g' Hr IH Hok].
  - destruct (orient_spec G HG Hl) as (g' & ? & ? & ? & ? & Hg' & _ & _ & _ & _ & _ & _ & _ & Ha). assert (g' = g) as -> by congruence.
    intros d a b Hab. apply Ha in Hab as [? _]. lia.
  - exact (Hstep g d f g' Hr IH Hok).
  - exact (Hstep g r 2 g' Hr IH (domset_ok_augment _ _ _ _ Hok)).
Qed.
End with_iter.

(** ** If every vertex has at most one in-neighbour of weight 1 *)
Lemma desc_app g a b : ∀ x y z, desc g a x y → desc g b y z → desc g (a + b) x z.
Proof.
  induction a as [|a IH]; intros x y z Hxy Hyz; cbn in *; [by subst|]. destruct Hxy as (w & Hxw & Hwy). exists w. split; [done|eauto].
Qed.
Lemma desc_split g a b : ∀ x z, desc g (a + b) x z → ∃ y, desc g a x y ∧ desc g b y z.
Proof.
  induction a as [|a IH]; intros x z Hxz; cbn in *; [by exists x|]. destruct Hxz as (w & Hxw & Hwz). apply IH in Hwz as (y & Hwy & Hyz). exists y. split; [|done]. eauto.
Qed.
Section single.
Context (g : dtfgraph) (Hone : ∀ x x' y, arc g 0 x y → arc g 0 x' y → x = x').

Lemma desc_inj k : ∀ x x' z, desc g k x z → desc g k x' z → x = x'.
Proof using Hone.
  induction k as [|k IH]; intros x x' z; cbn; [congruence|]. intros (y & Hxy & Hyz) (y' & Hxy' & Hyz').
  assert (y = y') as -> by eauto. eauto.
Qed.
Lemma desc_compare a b x y z : a ≤ b → desc g a x z → desc g b y z → desc g (b - a) y x.
Proof using Hone.
  intros Hle Hx Hy. replace b with ((b - a) + a) in Hy by lia. apply desc_split in Hy as (w & Hyw & Hw). by rewrite (desc_inj a x w z).
Qed.

(** Then the arcs of weight [w] lead from the [w]-th ancestors. *)
Lemma arcs_desc order : disjoint_layers g → (∀ i u, ¬ arc g i u u) → below g → tclosed g → reasoned g → NoDup order → (∀ u v, arc g 0 u v → before order u v) →
  ∀ i x y, arc g i x y → desc g (S i) x y.
Proof using Hone.
  intros Hdis Hno Hb Ht Hre Hnd Hord i. induction i as [i IH] using lt_wf_ind. intros x y Hxy. destruct i as [|d].
  { exists y. split; [done|reflexivity]. }
  pose proof (Hb _ _ _ Hxy) as Hdep. destruct (Hre d x y Hxy) as [(i & j & z & Hij & Hxz & Hzy)|(Hn & i & j & z & Hij & Hxz & Hyz)].
  - apply IH in Hxz; [|lia]. apply IH in Hzy; [|lia]. replace (S (S d)) with (S i + S j) by lia. by eapply desc_app.
  - exfalso. pose proof (IH i ltac:(lia) _ _ Hxz) as Dx. pose proof (IH j ltac:(lia) _ _ Hyz) as Dy.
    destruct (Nat.lt_trichotomy i j) as [Hlt|[->|Hgt]].
    + pose proof (desc_compare (S i) (S j) x y z ltac:(lia) Dx Dy) as Dyx. replace (S j - S i) with (S (j - i - 1)) in Dyx by lia.
      destruct (desc_arc g order _ y x Ht Hnd Hord Dyx) as (_ & k & Hk & Ha); [lia|]. apply (Hn k); [lia|done].
    + assert (x = y) as -> by exact (desc_inj (S j) x y z Dx Dy). by apply Hno in Hxy.
    + pose proof (desc_compare (S j) (S i) y x z ltac:(lia) Dy Dx) as Dxy. replace (S i - S j) with (S (i - j - 1)) in Dxy by lia.
      destruct (desc_arc g order _ x y Ht Hnd Hord Dxy) as (_ & k & Hk & Ha); [lia|].
      assert (k = S d) by exact (Hdis _ _ _ _ Ha Hxy). lia.
Qed.
End single.
