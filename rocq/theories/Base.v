(** Common infrastructure of the model: vertices, results with panics,
    hash iteration order, u32 arithmetic. *)
From stdpp Require Export prelude gmap sorting.

(** Models [pub type Vertex = u32] (graph.rs:15).  Simplified: unbounded [N];
    wrap-around is written explicitly with [u32] where the code computes labels. *)
Notation vertex := N (only parsing).

(** Models [pub type Edge = (Vertex, Vertex)] and [Arc] (graph.rs:18-21). *)
Notation edge := (N * N)%type (only parsing).

(** u32 wrap-around (release-mode arithmetic on [Vertex] values, graph.rs:15). *)
Definition u32_mod : N := 4294967296%N.
Definition u32 (n : N) : N := (n mod u32_mod)%N.

(** Outcome of a Rust call: a value, a panic (unwrap on None, index out of
    bounds, [panic!], failed [assert!], debug-mode underflow), or fuel exhausted
    in a fuelled loop (non-termination when it happens for all fuels).
    Not a definition of the code base; models Rust's evaluation outcomes. *)
Inductive res (A : Type) : Type :=
  | Ok (a : A)
  | Panic
  | Diverge.
Arguments Ok {_} _.
Arguments Panic {_}.
Arguments Diverge {_}.

Global Instance res_ret : MRet res := @Ok.
Global Instance res_bind : MBind res := λ A B f r,
  match r with Ok a => f a | Panic => Panic | Diverge => Diverge end.
Global Instance res_fmap : FMap res := λ A B f r,
  match r with Ok a => Ok (f a) | Panic => Panic | Diverge => Diverge end.

(** [Option::unwrap] / container indexing. *)
Definition unwrap {A} (o : option A) : res A :=
  match o with Some a => Ok a | None => Panic end.

(** [assert!] *)
Definition assert_res (b : bool) : res unit := if b then Ok tt else Panic.

(** Debug-mode checked subtraction on unsigned integers. *)
Definition sub_checked (a b : nat) : res nat :=
  if b <=? a then Ok (a - b) else Panic.

(** A [for] loop over the items [l] of an iterator with mutable state [s]. *)
Fixpoint fold_res {A S} (f : S → A → res S) (l : list A) (s : S) : res S :=
  match l with
  | [] => Ok s
  | x :: l => s' ← f s x; fold_res f l s'
  end.

(** [for i in lo..lo+n] over vertices. *)
Fixpoint nrange (lo : N) (n : nat) : list N :=
  match n with O => [] | S n => lo :: nrange (N.succ lo) n end.

(** Rust range [lo..hi] of u32. *)
Definition range (lo hi : N) : list N := nrange lo (N.to_nat (hi - lo)).

(** Hash iteration order: FxHashSet/FxHashMap iterate in an order the language
    does not specify.  [hash_iter t S] is the order in which the set [S] is
    iterated at "site/time" [t]; it is an arbitrary permutation of the elements.
    Every theorem is stated for all instances. *)
Class HashIter := {
  hash_iter (t : nat) {K : Type} `{Countable K} : gset K → list K;
  hash_iter_perm (t : nat) {K : Type} `{Countable K} (X : gset K) :
    hash_iter t X ≡ₚ elements X;
}.

(** One concrete oracle, used to evaluate examples. *)
Definition std_iter : HashIter.
Proof.
  refine {| hash_iter := λ _ K _ _ X, elements X |}. intros. reflexivity.
Defined.

(** A second one, iterating backwards. *)
Definition rev_iter : HashIter.
Proof.
  refine {| hash_iter := λ _ K _ _ X, reverse (elements X) |}.
  intros. apply reverse_Permutation.
Defined.

(** Iterating an FxHashMap: key/value pairs in hash order. *)
Definition map_iter `{HashIter} (t : nat) {K A} `{Countable K}
    (m : gmap K A) : list (K * A) :=
  omap (λ k, pair k <$> m !! k) (hash_iter t (dom m)).

(** [FxHashMap::entry(k).or_default() ...]-style update. *)
Definition map_upd {K A} `{Countable K} (d : A) (f : A → A) (k : K)
    (m : gmap K A) : gmap K A :=
  <[k := f (default d (m !! k))]> m.

(** Collecting an iterator of items into a hash set. *)
Definition collect_set {K} `{Countable K} (l : list K) : gset K := list_to_set l.

(** ** Basic lemmas *)
Lemma bind_ok {A B} (r : res A) (f : A → res B) b :
  (r ≫= f) = Ok b ↔ ∃ a, r = Ok a ∧ f a = Ok b.
Proof. destruct r; cbn; naive_solver. Qed.

Lemma unwrap_ok {A} (o : option A) a : unwrap o = Ok a ↔ o = Some a.
Proof. destruct o; cbn; naive_solver. Qed.

Lemma fold_res_app {A S} (f : S → A → res S) l1 l2 s :
  fold_res f (l1 ++ l2) s = (s' ← fold_res f l1 s; fold_res f l2 s').
Proof.
  revert s; induction l1 as [|x l1 IH]; intros s; cbn; [done|].
  destruct (f s x); cbn; auto.
Qed.

Lemma fold_res_cons {A S} (f : S → A → res S) x l s :
  fold_res f (x :: l) s = (s' ← f s x; fold_res f l s').
Proof. done. Qed.

(** Invariant rule: the invariant may mention the processed prefix. *)
Lemma fold_res_inv {A S} (f : S → A → res S) (I : list A → S → Prop) l s :
  I [] s →
  (∀ l1 x l2 s, l = l1 ++ x :: l2 → I l1 s → ∃ s', f s x = Ok s' ∧ I (l1 ++ [x]) s') →
  ∃ s', fold_res f l s = Ok s' ∧ I l s'.
Proof.
  intros H0 Hstep.
  enough (∀ l2 l1 s, l = l1 ++ l2 → I l1 s → ∃ s', fold_res f l2 s = Ok s' ∧ I l s') as HH.
  { apply (HH l []); done. }
  induction l2 as [|x l2 IH]; intros l1 s1 -> HI; cbn.
  - rewrite app_nil_r. eauto.
  - destruct (Hstep l1 x l2 s1) as (s2 & -> & HI2); [done|done|]. cbn.
    destruct (IH (l1 ++ [x]) s2) as (s3 & ? & ?); [|done|eauto].
    by rewrite <- (assoc_L (++)).
Qed.

(** Plain invariant rule. *)
Lemma fold_res_inv' {A S} (f : S → A → res S) (I : S → Prop) l s :
  I s → (∀ x s, x ∈ l → I s → ∃ s', f s x = Ok s' ∧ I s') →
  ∃ s', fold_res f l s = Ok s' ∧ I s'.
Proof.
  intros H0 Hs. apply (fold_res_inv f (λ _, I)); [done|].
  intros l1 x l2 s' -> HI. apply Hs; [set_solver|done].
Qed.

Lemma elem_of_nrange x lo n : x ∈ nrange lo n ↔ (lo <= x < lo + N.of_nat n)%N.
Proof.
  revert lo; induction n as [|n IH]; intros lo; cbn [nrange].
  - split; [set_solver|lia].
  - rewrite elem_of_cons, IH. lia.
Qed.

Lemma elem_of_range x lo hi : x ∈ range lo hi ↔ (lo <= x < hi)%N.
Proof. unfold range. rewrite elem_of_nrange. lia. Qed.

Lemma NoDup_nrange lo n : NoDup (nrange lo n).
Proof.
  revert lo; induction n as [|n IH]; intros lo; cbn; constructor; [|done].
  rewrite elem_of_nrange. lia.
Qed.

Lemma NoDup_range lo hi : NoDup (range lo hi).
Proof. apply NoDup_nrange. Qed.

Lemma nrange_length lo n : length (nrange lo n) = n.
Proof. revert lo; induction n; intros; cbn; auto. Qed.

Section hash_iter_lemmas.
  Context `{HI : HashIter}.

  Lemma elem_of_hash_iter t `{Countable K} (X : gset K) x :
    x ∈ hash_iter t X ↔ x ∈ X.
  Proof. by rewrite hash_iter_perm, elem_of_elements. Qed.

  Lemma NoDup_hash_iter t `{Countable K} (X : gset K) : NoDup (hash_iter t X).
  Proof. rewrite hash_iter_perm. apply NoDup_elements. Qed.

  Lemma hash_iter_length t `{Countable K} (X : gset K) :
    length (hash_iter t X) = size X.
  Proof. by rewrite hash_iter_perm. Qed.

  Lemma elem_of_map_iter t {A} `{Countable K} (m : gmap K A) k a :
    (k, a) ∈ map_iter t m ↔ m !! k = Some a.
  Proof.
    unfold map_iter. rewrite elem_of_list_omap. split.
    - intros (k' & _ & Hk). destruct (m !! k') eqn:E; cbn in Hk; naive_solver.
    - intros Hk. exists k. rewrite elem_of_hash_iter, elem_of_dom, Hk. eauto.
  Qed.

  Lemma map_iter_fst t {A} `{Countable K} (m : gmap K A) :
    (map_iter t m).*1 = hash_iter t (dom m).
  Proof.
    unfold map_iter.
    assert (∀ k, k ∈ hash_iter t (dom m) → is_Some (m !! k)) as Hk.
    { intros k. rewrite elem_of_hash_iter. apply elem_of_dom. }
    induction (hash_iter t (dom m)) as [|k l IH]; [done|].
    cbn. destruct (Hk k) as [a Ha]; [set_solver|]. rewrite Ha. cbn.
    f_equal. apply IH. set_solver.
  Qed.

  Lemma NoDup_map_iter_fst t {A} `{Countable K} (m : gmap K A) :
    NoDup (map_iter t m).*1.
  Proof. rewrite map_iter_fst. apply NoDup_hash_iter. Qed.

  Lemma NoDup_map_iter t {A} `{Countable K} (m : gmap K A) :
    NoDup (map_iter t m).
  Proof. eapply NoDup_fmap_1, NoDup_map_iter_fst. Qed.

  Lemma map_iter_perm t {A} `{Countable K} (m : gmap K A) :
    map_iter t m ≡ₚ map_to_list m.
  Proof.
    apply NoDup_Permutation; [apply NoDup_map_iter|apply NoDup_map_to_list|].
    intros [k a]. by rewrite elem_of_map_iter, elem_of_map_to_list.
  Qed.
End hash_iter_lemmas.
