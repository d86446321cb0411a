(** Model of iterators.rs: the undirected iterators, as state machines. *)
From Verif Require Import Base M_Graph.

(** Draining an iterator: [drains next s l] says that repeatedly calling [next]
    starting in state [s] returns exactly the items [l] and then [None].
    (Rust's [for]/[collect] over an [Iterator].) *)
Inductive drains {S A} (next : S → res (option A * S)) : S → list A → Prop :=
  | drains_nil s s' : next s = Ok (None, s') → drains next s []
  | drains_cons s s' x l :
      next s = Ok (Some x, s') → drains next s' l → drains next s (x :: l).

(** Models [NeighIterator] (iterators.rs:19-39): the state is the list of
    vertices the vertex iterator still has to yield. *)
Definition neigh_next (G : graph) (vs : list N) : res (option (N * list N) * list N) :=
  match vs with
  | [] => Ok (None, [])
  | v :: vs => N ← neighbours G v; Ok (Some (v, N), vs)
  end.

(** Models the struct [EdgeIterator] (iterators.rs:117-121). *)
Record edge_it := EdgeIt { ei_vs : list N; ei_cur : option N; ei_it : option (list N) }.

(** Models [EdgeIterator::advance] (iterators.rs:134-141). *)
Definition ei_advance (G : graph) (s : edge_it) : res edge_it :=
  r ← neigh_next G (ei_vs s);
  match r with
  | (Some (v, it), vs) => Ok (EdgeIt vs (Some v) (Some it))
  | (None, vs) => Ok (EdgeIt vs (ei_cur s) None)
  end.

(** Models [EdgeIterator::new] / [EdgeIterable::edges] (iterators.rs:124-132, 179-183). *)
Definition ei_new (G : graph) : res edge_it :=
  ei_advance G (EdgeIt (vertices G) None None).

(** Part of [EdgeIterator::next] (iterators.rs:148-165): consume [curr_it] until an
    item passes the tie-break. *)
Fixpoint ei_scan (v : N) (it : list N) : option N * list N :=
  match it with
  | [] => (None, [])
  | u :: it => if (u <? v)%N then ei_scan v it else (Some u, it)
  end.

(** The [while] loop of [EdgeIterator::next] (iterators.rs:148-165), by recursion on the
    vertices still to come (each exhausted [curr_it] advances). *)
Fixpoint ei_loop (G : graph) (v : N) (it : list N) (vs : list N)
    : res (option (N * N) * edge_it) :=
  match ei_scan v it with
  | (Some u, it') => Ok (Some (v, u), EdgeIt vs (Some v) (Some it'))
  | (None, _) =>
      match vs with
      | [] => Ok (None, EdgeIt [] (Some v) None)
      | v' :: vs' => it' ← neighbours G v'; ei_loop G v' it' vs'
      end
  end.

(** Models [EdgeIterator::next] (iterators.rs:147-168).  Simplified: [curr_v.unwrap()]
    is evaluated even if [curr_it] is empty; [curr_v] is always set by [advance]. *)
Definition ei_next (G : graph) (s : edge_it) : res (option (N * N) * edge_it) :=
  match ei_it s with
  | None => Ok (None, s)
  | Some it => v ← unwrap (ei_cur s); ei_loop G v it (ei_vs s)
  end.

(** The items of [self.edges()] as a list (iterators.rs:117-183); proved equal to
    draining the state machine above.  Used where the code iterates edges(). *)
Definition edges (G : graph) : res (list (N * N)) :=
  ls ← mapM (M:=res) (λ v, Nv ← neighbours G v; Ok (pair v <$> filter (λ u, ¬ (u < v)%N) (Nv : list N)))
         (vertices G);
  Ok (concat ls).

(** Models [enum VertexOrEdge] (graph.rs:46-50). *)
Inductive vertex_or_edge := VE_V (v : N) | VE_E (e : N * N).

(** Models the struct [MixedIterator] (iterators.rs:188-193). *)
Record mixed_it := MixedIt {
  mi_vs : list N; mi_returned : bool; mi_cur : option N; mi_it : option (list N) }.

(** Models [MixedIterator::advance] (iterators.rs:207-216). *)
Definition mi_advance (G : graph) (s : mixed_it) : res mixed_it :=
  r ← neigh_next G (mi_vs s);
  match r with
  | (Some (v, it), vs) => Ok (MixedIt vs false (Some v) (Some it))
  | (None, vs) => Ok (MixedIt vs false None None)
  end.

(** Models [MixedIterator::new] (iterators.rs:196-205). *)
Definition mi_new (G : graph) : res mixed_it :=
  mi_advance G (MixedIt (vertices G) false None None).

(** The [for u in it.by_ref()] loop of [MixedIterator::next] (iterators.rs:231-236). *)
Fixpoint mi_scan (v : N) (it : list N) : option N * list N :=
  match it with
  | [] => (None, [])
  | u :: it => if (v <? u)%N then (Some u, it) else mi_scan v it
  end.

(** Models [MixedIterator::next] (iterators.rs:222-242); after [advance] the loop
    returns the next vertex at once, so no recursion is needed. *)
Definition mi_next (G : graph) (s : mixed_it) : res (option vertex_or_edge * mixed_it) :=
  match mi_cur s, mi_it s with
  | Some v, Some it =>
      if mi_returned s then
        match mi_scan v it with
        | (Some u, it') => Ok (Some (VE_E (v, u)), MixedIt (mi_vs s) true (Some v) (Some it'))
        | (None, it') =>
            s' ← mi_advance G (MixedIt (mi_vs s) true (Some v) (Some it'));
            match mi_cur s', mi_it s' with
            | Some v', Some it'' =>
                Ok (Some (VE_V v'), MixedIt (mi_vs s') true (Some v') (Some it''))
            | _, _ => Ok (None, s')
            end
        end
      else Ok (Some (VE_V v), MixedIt (mi_vs s) true (Some v) (Some it))
  | _, _ => Ok (None, s)
  end.

(** The items of [vertices_and_edges()] as a list (iterators.rs:188-254). *)
Definition vertices_and_edges (G : graph) : res (list vertex_or_edge) :=
  ls ← mapM (M:=res) (λ v, Nv ← neighbours G v;
                  Ok (VE_V v :: ((λ u, VE_E (v, u)) <$> filter (λ u, (v < u)%N) (Nv : list N))))
         (vertices G);
  Ok (concat ls).
