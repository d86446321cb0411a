(** Model of io.rs.  A text is the list of its characters (Unicode scalar values).  Not modelled:
    the file system, gzip, the choice of reader by file extension, and UTF-8; a text here is the
    decoded content, so [line.unwrap()] never fails. *)
From Verif Require Import Base M_Graph M_Iterators M_EditGraph.

(** Models the two [InvalidData] errors (io.rs:120-123, 190-193, 242-243) with the data in their messages. *)
Inductive io_error := NotTwoTokens (lineno : nat) | BadVertex (s : list N) (lineno : nat).
Inductive io (A : Type) := IoOk (a : A) | IoErr (e : io_error).
Global Arguments IoOk {A}.
Global Arguments IoErr {A}.

(** Models [format!("{x}")] of a [u32] (io.rs:68, 91, 102), that is [Display]: decimal digits, the
    most significant first.  The fuel is the number of bits, never exhausted on [x] > 0. *)
Fixpoint fmt_digits (fuel : nat) (x : N) (acc : list N) : list N :=
  let acc := (48 + x mod 10)%N :: acc in
  match fuel with
  | O => acc
  | S fuel => if (x / 10 =? 0)%N then acc else fmt_digits fuel (x / 10)%N acc
  end.
Definition fmt_u32 (x : N) : list N := fmt_digits (N.size_nat x) x [].

(** Models [s.parse::<u32>()] (io.rs:240), that is [u32::from_str_radix(s, 10)]. *)
Fixpoint parse_digits (acc : N) (s : list N) : option N :=
  match s with
  | [] => Some acc
  | c :: s =>
      if ((48 <=? c) && (c <=? 57))%N then
        if (acc * 10 <? u32_mod)%N then
          if (acc * 10 + (c - 48) <? u32_mod)%N then parse_digits (acc * 10 + (c - 48))%N s else None
        else None
      else None
  end.
Definition parse_u32 (s : list N) : option N :=
  match s with
  | [] => None
  | [c] => if ((c =? 43) || (c =? 45))%N then None else parse_digits 0 [c]
  | c :: s' => if (c =? 43)%N then parse_digits 0 s' else parse_digits 0 s
  end.

(** Models [parse_vertex] (io.rs:239-245). *)
Definition parse_vertex (s : list N) (lineno : nat) : io N :=
  match parse_u32 s with
  | Some x => IoOk x
  | None => IoErr (BadVertex s lineno)
  end.

(** Models [char::is_whitespace], used by [trim] and [split_whitespace] (io.rs:57, 80, 118, 188). *)
Definition is_whitespace (c : N) : bool :=
  ((c =? 32) || ((9 <=? c) && (c <=? 13)) ||
   ((127 <? c) && ((c =? 133) || (c =? 160) || (c =? 5760) || ((8192 <=? c) && (c <=? 8202)) ||
      (c =? 8232) || (c =? 8233) || (c =? 8239) || (c =? 8287) || (c =? 12288))))%N.

(** Models [BufRead::lines] (io.rs:55, 78, 116, 186): [buf] is the line read so far; a line feed ends
    it, and a carriage return before the line feed is dropped. *)
Definition strip_cr (buf : list N) : list N :=
  match last buf with
  | Some c => if (c =? 13)%N then take (length buf - 1) buf else buf
  | None => buf
  end.
Fixpoint lines_from (buf : list N) (t : list N) : list (list N) :=
  match t with
  | [] => match buf with [] => [] | _ => [buf] end
  | c :: t => if (c =? 10)%N then strip_cr buf :: lines_from [] t else lines_from (buf ++ [c]) t
  end.
Definition io_lines (t : list N) : list (list N) := lines_from [] t.

(** Models [split_whitespace] (io.rs:118, 188): the non-empty pieces between whitespace. *)
Fixpoint split_from (tok : list N) (l : list N) : list (list N) :=
  match l with
  | [] => [tok]
  | c :: l => if is_whitespace c then tok :: split_from [] l else split_from (tok ++ [c]) l
  end.
Definition split_whitespace (l : list N) : list (list N) :=
  filter (λ tok : list N, tok ≠ []) (split_from [] l).

(** Models [trim] (io.rs:57, 80). *)
Fixpoint trim_start (l : list N) : list N :=
  match l with
  | [] => []
  | c :: l' => if is_whitespace c then trim_start l' else l
  end.
Definition io_trim (l : list N) : list N := reverse (trim_start (reverse (trim_start l))).

(** Models [LoadFromFile::from_buf] for [VertexSet] (io.rs:52-63); [i] counts the lines. *)
Fixpoint vset_load_lines (i : nat) (s : gset N) (ls : list (list N)) : io (gset N) :=
  match ls with
  | [] => IoOk s
  | l :: ls =>
      match parse_vertex (io_trim l) i with
      | IoOk u => vset_load_lines (S i) ({[u]} ∪ s) ls
      | IoErr e => IoErr e
      end
  end.
Definition vset_load (t : list N) : io (gset N) := vset_load_lines 0 ∅ (io_lines t).

(** Models [LoadFromFile::from_buf] for [Vec<Vertex>] (io.rs:75-86). *)
Fixpoint vec_load_lines (i : nat) (s : list N) (ls : list (list N)) : io (list N) :=
  match ls with
  | [] => IoOk s
  | l :: ls =>
      match parse_vertex (io_trim l) i with
      | IoOk u => vec_load_lines (S i) (s ++ [u]) ls
      | IoErr e => IoErr e
      end
  end.
Definition vec_load (t : list N) : io (list N) := vec_load_lines 0 [] (io_lines t).

(** Models [from_buf] for [EditGraph] (io.rs:184-201) and [from_buf_with_estimate] (io.rs:114-131),
    which have the same body.  Simplified: [with_capacity] is [eg_new], capacities do not matter. *)
Fixpoint eg_load_lines (lineno : nat) (g : editgraph) (ls : list (list N)) : res (io editgraph) :=
  match ls with
  | [] => Ok (IoOk g)
  | l :: ls =>
      match split_whitespace l with
      | [a; b] =>
          match parse_vertex a lineno with
          | IoErr e => Ok (IoErr e)
          | IoOk u =>
              match parse_vertex b lineno with
              | IoErr e => Ok (IoErr e)
              | IoOk v => r ← eg_add_edge g u v; eg_load_lines (S lineno) r.1 ls
              end
          end
      | _ => Ok (IoErr (NotTwoTokens lineno))
      end
  end.
Definition eg_load (t : list N) : res (io editgraph) := eg_load_lines 0 eg_new (io_lines t).

Section with_iter.
Context `{HI : HashIter}.
(** Models [WriteToFile::write_buf] for [Vec<Vertex>] (io.rs:88-97) where all writes succeed (see M_Write.v for errors). *)
Definition vec_write (l : list N) : list N := foldl (λ t u, t ++ fmt_u32 u ++ [10%N]) [] l.

(** Models [WriteToFile::write_buf] for [VertexSet] (io.rs:65-73). *)
Definition vset_write (s : gset N) : list N := foldl (λ t x, t ++ fmt_u32 x ++ [10%N]) [] (hash_iter 60 s).

(** Models [WriteToFile::write_buf] for graphs (io.rs:99-108). *)
Definition graph_write (G : graph) : res (list N) :=
  es ← edges G;
  Ok (foldl (λ t e, t ++ fmt_u32 e.1 ++ [32%N] ++ fmt_u32 e.2 ++ [10%N]) [] es).
End with_iter.
