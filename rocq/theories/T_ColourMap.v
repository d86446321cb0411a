(** Property C98: VertexColouring as a map from vertices to colours. *)
From Verif Require Import Base Spec M_Colouring M_ColourMap P_Colouring T_Colouring.

(** The pairs written since the colouring was last replaced, oldest first. *)
Fixpoint written {T} (acc : list (N * T)) (os : list (cm_op T)) : list (N * T) :=
  match os with
  | [] => acc
  | CmInsert v c :: os => written (acc ++ [(v, c)]) os
  | CmFromIter l :: os => written l os
  end.
(** [c] is the last colour that [l] gives to [v]. *)
Definition last_colour {T} (l : list (N * T)) (v : N) (c : T) : Prop :=
  ∃ l1 l2, l = l1 ++ (v, c) :: l2 ∧ v ∉ l2.*1.

Lemma last_colour_nil {T} v (c : T) : ¬ last_colour [] v c.
Proof. intros (l1 & l2 & E & _). by destruct l1. Qed.
Lemma last_colour_snoc {T} (l : list (N * T)) w d v c :
  last_colour (l ++ [(w, d)]) v c ↔ (v = w ∧ c = d) ∨ (v ≠ w ∧ last_colour l v c).
Proof.
  split.
  - intros (l1 & l2 & E & Hn). destruct l2 as [|x l2 _] using rev_ind.
    + apply app_inj_tail in E as [-> [= -> ->]]. by left.
    + rewrite app_comm_cons, app_assoc in E. apply app_inj_tail in E as [-> <-].
      rewrite fmap_app in Hn. cbn in Hn. right. split; [set_solver|]. exists l1, l2. split; [done|set_solver].
  - intros [[-> ->]|[Hne (l1 & l2 & -> & Hn)]].
    + exists l, []. split; [done|]. apply not_elem_of_nil.
    + exists l1, (l2 ++ [(w, d)]). split; [by rewrite <- app_assoc|]. rewrite fmap_app. cbn. set_solver.
Qed.
Lemma from_iter_last {T} (l : list (N * T)) v c : cm_from_iter l !! v = Some c ↔ last_colour l v c.
Proof.
  induction l as [|[w d] l IH] using rev_ind.
  - split; [done|]. by intros ?%last_colour_nil.
  - unfold cm_from_iter in *. rewrite foldl_app. cbn. rewrite last_colour_snoc, lookup_insert_Some, IH. naive_solver.
Qed.
Lemma from_iter_snoc {T} (l : list (N * T)) v c : cm_from_iter (l ++ [(v, c)]) = (cm_insert (cm_from_iter l) v c).1.
Proof. unfold cm_from_iter. by rewrite foldl_app. Qed.
Lemma run_written {T} (os : list (cm_op T)) acc :
  foldl (λ m o, (cm_step m o).1) (cm_from_iter acc) os = cm_from_iter (written acc os).
Proof.
  revert acc. induction os as [|[v c|l] os IH]; intros acc; [done| |].
  - cbn [foldl cm_step written]. rewrite <- from_iter_snoc. apply IH.
  - apply IH.
Qed.
Lemma cm_run_eq {T} (os : list (cm_op T)) : cm_run os = cm_from_iter (written [] os).
Proof. apply (run_written os []). Qed.

(** After any sequence of calls, a vertex has the colour it was given last. *)
Theorem C98_get {T} (os : list (cm_op T)) v c : cm_get (cm_run os) v = Some c ↔ last_colour (written [] os) v c.
Proof. rewrite cm_run_eq. apply from_iter_last. Qed.

Theorem C98_queries {T} (os : list (cm_op T)) v :
  let l := written [] os in let m := cm_run os in
  (cm_contains m v = true ↔ v ∈ l.*1) ∧ (cm_get m v = None ↔ v ∉ l.*1) ∧
  (cm_index m v = Panic ↔ v ∉ l.*1) ∧ (∀ c, cm_index m v = Ok c ↔ cm_get m v = Some c) ∧
  cm_len m = length (remove_dups l.*1).
Proof.
  cbv zeta. set (l := written [] os).
  assert (∀ w, is_Some (cm_run os !! w) ↔ w ∈ l.*1) as Hs.
  { intros w. split.
    - intros [c Hc]. apply C98_get in Hc as (l1 & l2 & E & _). fold l in E. rewrite E, fmap_app. cbn. set_solver.
    - intros Hw. subst l. rewrite cm_run_eq. clear - Hw. induction (written [] os) as [|[x d] l IH] using rev_ind; [by apply elem_of_nil in Hw|].
      rewrite from_iter_snoc. cbn. rewrite fmap_app in Hw. cbn in Hw. apply lookup_insert_is_Some'.
      apply elem_of_app in Hw as [Hw|Hw%elem_of_list_singleton]; [right; by apply IH|by left]. }
  unfold cm_contains, cm_get, cm_index, cm_len. split_and!.
  - rewrite <- Hs. destruct (cm_run os !! v); split; try done; by intros [? ?].
  - rewrite <- Hs, <- eq_None_not_Some. done.
  - rewrite <- Hs, <- eq_None_not_Some. by destruct (cm_run os !! v).
  - intros c. destruct (cm_run os !! v); cbn; split; congruence.
  - assert (dom (cm_run os) = (list_to_set (remove_dups l.*1) : gset N)) as Hd.
    { apply set_eq. intros w. rewrite elem_of_dom, Hs, elem_of_list_to_set, elem_of_remove_dups. done. }
    rewrite <- size_dom, Hd. apply size_list_to_set, NoDup_remove_dups.
Qed.

(** [insert] returns the colour it replaces and leaves the others alone. *)
Theorem C98_insert {T} (os : list (cm_op T)) v c :
  let m := cm_run os in
  (∀ d, (cm_insert m v c).2 = Some d ↔ last_colour (written [] os) v d) ∧
  (∀ u, cm_get (cm_insert m v c).1 u = if decide (u = v) then Some c else cm_get m u) ∧
  cm_len (cm_insert m v c).1 = cm_len m + (if cm_contains m v then 0 else 1).
Proof.
  cbv zeta. split; [|split].
  - intros d. apply C98_get.
  - intros u. unfold cm_get, cm_insert. cbn. destruct (decide (u = v)) as [->|Hne]; [by rewrite lookup_insert|by rewrite lookup_insert_ne].
  - unfold cm_len, cm_contains, cm_insert. cbn. destruct (cm_run os !! v) as [d|] eqn:E.
    + rewrite map_size_insert_Some by done. lia.
    + rewrite map_size_insert_None by done. lia.
Qed.

Section with_iter.
Context `{HI : HashIter}.

(** [iter] and [vertices] list each coloured vertex once; rebuilding the colouring from [iter] gives it back. *)
Theorem C98_iter {T} (os : list (cm_op T)) :
  let m := cm_run os in
  NoDup (cm_iter m).*1 ∧ (∀ v c, (v, c) ∈ cm_iter m ↔ last_colour (written [] os) v c) ∧
  NoDup (cm_vertices m) ∧ (∀ v, v ∈ cm_vertices m ↔ cm_contains m v = true) ∧
  length (cm_iter m) = cm_len m ∧ length (cm_vertices m) = cm_len m ∧ cm_from_iter (cm_iter m) = m.
Proof.
  cbv zeta. set (m := cm_run os). unfold cm_iter, cm_vertices, cm_len. split_and!.
  - apply NoDup_map_iter_fst.
  - intros v c. rewrite elem_of_map_iter. apply C98_get.
  - apply NoDup_map_iter_fst.
  - intros v. rewrite map_iter_fst, elem_of_hash_iter, elem_of_dom. unfold cm_contains. destruct (m !! v); split; try done. by intros [? ?].
  - rewrite <- (fmap_length fst). rewrite map_iter_fst, hash_iter_length. apply size_dom.
  - rewrite map_iter_fst, hash_iter_length. apply size_dom.
  - apply map_eq. intros v. apply option_eq. intros c. rewrite from_iter_last, <- (elem_of_map_iter 7). split.
    + intros (l1 & l2 & -> & _). set_solver.
    + intros Hin. pose proof (NoDup_map_iter_fst 7 m) as Hnd. apply elem_of_list_split in Hin as (l1 & l2 & E). exists l1, l2.
      split; [exact E|]. rewrite E, fmap_app in Hnd. cbn in Hnd. apply NoDup_app in Hnd as (_ & _ & Hnd). by apply NoDup_cons in Hnd as [? _].
Qed.
End with_iter.

(** ** Concrete cases *)
Definition ex_cm_ops : list (cm_op N) := [CmInsert 9 1; CmFromIter [(0, 5); (3, 1); (0, 2)]; CmInsert 3 4; CmInsert 7 2]%N.
Example ex_C98 : written [] ex_cm_ops = [(0, 5); (3, 1); (0, 2); (3, 4); (7, 2)]%N ∧
  cm_get (cm_run ex_cm_ops) 0 = Some 2%N ∧ cm_get (cm_run ex_cm_ops) 3 = Some 4%N ∧ cm_get (cm_run ex_cm_ops) 9 = None ∧
  cm_len (cm_run ex_cm_ops) = 3 ∧ (cm_insert (cm_run ex_cm_ops) 3 8%N).2 = Some 4%N ∧ cm_index (cm_run ex_cm_ops) 9 = Panic.
Proof. vm_compute. split_and!; reflexivity. Qed.

Print Assumptions C98_get.
Print Assumptions C98_queries.
Print Assumptions C98_insert.
Print Assumptions C98_iter.
