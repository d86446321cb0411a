(** Model of the file layer of io.rs: [write_txt], [write_gzipped], [from_txt], [from_gzipped],
    [from_file], [open_reader*], on bytes.  Not modelled: capacities, errors of writes (see
    M_Write.v), of [File::create] and of [metadata], paths that name the same file in two ways.  Gzip is a pair of
    functions [gz_enc] and [gz_dec]. *)
From Verif Require Import Base M_Graph M_Iterators M_EditGraph M_IO.

(** What a [BufRead] delivers (io.rs:49): its bytes, and then the end ([true]) or a read error ([false]). *)
Record reader := Reader { rd_bytes : list N; rd_ok : bool }.

(** Continuation bytes of UTF-8, used by [lines] (io.rs:55, 78, 116, 186). *)
Definition utf8_cont (b : N) : bool := ((128 <=? b) && (b <=? 191))%N.
(** Models [str::from_utf8], called by [BufRead::lines] (io.rs:55, 78, 116, 186). *)
Fixpoint from_utf8 (bs : list N) : option (list N) :=
  match bs with
  | [] => Some []
  | b0 :: bs0 =>
      if (b0 <? 128)%N then cons b0 <$> from_utf8 bs0
      else match bs0 with
      | [] => None
      | b1 :: bs1 =>
          if ((194 <=? b0) && (b0 <=? 223))%N then
            if utf8_cont b1 then cons ((b0 - 192) * 64 + (b1 - 128))%N <$> from_utf8 bs1 else None
          else match bs1 with
          | [] => None
          | b2 :: bs2 =>
              if ((224 <=? b0) && (b0 <=? 239))%N then
                if utf8_cont b1 && utf8_cont b2 && implb (b0 =? 224)%N (160 <=? b1)%N && implb (b0 =? 237)%N (b1 <=? 159)%N
                then cons (((b0 - 224) * 64 + (b1 - 128)) * 64 + (b2 - 128))%N <$> from_utf8 bs2 else None
              else match bs2 with
              | [] => None
              | b3 :: bs3 =>
                  if ((240 <=? b0) && (b0 <=? 244))%N && utf8_cont b1 && utf8_cont b2 && utf8_cont b3 &&
                     implb (b0 =? 240)%N (144 <=? b1)%N && implb (b0 =? 244)%N (b1 <=? 143)%N
                  then cons ((((b0 - 240) * 64 + (b1 - 128)) * 64 + (b2 - 128)) * 64 + (b3 - 128))%N <$> from_utf8 bs3 else None
              end
          end
      end
  end.

(** Models the repeated [read_until(b'\n')] of [lines] (io.rs:55, 78, 116, 186): the pieces keep their
    line feed; [None] is a read error. *)
Fixpoint rd_chunks (ok : bool) (buf bs : list N) : list (option (list N)) :=
  match bs with
  | [] => if ok then match buf with [] => [] | _ => [Some buf] end else [None]
  | c :: bs => if (c =? 10)%N then Some (buf ++ [c]) :: rd_chunks ok [] bs else rd_chunks ok (buf ++ [c]) bs
  end.
(** Models the end-of-line removal of [lines] (io.rs:55, 78, 116, 186): LF, and CR before it. *)
Definition strip_eol (s : list N) : list N :=
  match last s with
  | Some c => if (c =? 10)%N then strip_cr (take (length s - 1) s) else s
  | None => s
  end.
(** Models [BufRead::lines] (io.rs:55, 78, 116, 186): [None] is an [Err], after a read error or on bytes that are not UTF-8. *)
Definition rd_lines (r : reader) : list (option (list N)) :=
  (λ p, b ← p; s ← from_utf8 b; Some (strip_eol s)) <$> rd_chunks (rd_ok r) [] (rd_bytes r).

(** Models [from_buf] for [VertexSet] (io.rs:52-63), with [line.unwrap()]. *)
Fixpoint vset_read (i : nat) (s : gset N) (ls : list (option (list N))) : res (io (gset N)) :=
  match ls with
  | [] => Ok (IoOk s)
  | l :: ls =>
      l ← unwrap l;
      match parse_vertex (io_trim l) i with
      | IoOk u => vset_read (S i) ({[u]} ∪ s) ls
      | IoErr e => Ok (IoErr e)
      end
  end.
Definition vset_from_buf (r : reader) : res (io (gset N)) := vset_read 0 ∅ (rd_lines r).

(** Models [from_buf] for [Vec<Vertex>] (io.rs:75-86), with [line.unwrap()]. *)
Fixpoint vec_read (i : nat) (s : list N) (ls : list (option (list N))) : res (io (list N)) :=
  match ls with
  | [] => Ok (IoOk s)
  | l :: ls =>
      l ← unwrap l;
      match parse_vertex (io_trim l) i with
      | IoOk u => vec_read (S i) (s ++ [u]) ls
      | IoErr e => Ok (IoErr e)
      end
  end.
Definition vec_from_buf (r : reader) : res (io (list N)) := vec_read 0 [] (rd_lines r).

(** Models [from_buf] for [EditGraph] (io.rs:184-201) and [from_buf_with_estimate] (io.rs:114-131),
    with [line.unwrap()]. *)
Fixpoint eg_read (lineno : nat) (g : editgraph) (ls : list (option (list N))) : res (io editgraph) :=
  match ls with
  | [] => Ok (IoOk g)
  | l :: ls =>
      l ← unwrap l;
      match split_whitespace l with
      | [a; b] =>
          match parse_vertex a lineno with
          | IoErr e => Ok (IoErr e)
          | IoOk u =>
              match parse_vertex b lineno with
              | IoErr e => Ok (IoErr e)
              | IoOk v => r ← eg_add_edge g u v; eg_read (S lineno) r.1 ls
              end
          end
      | _ => Ok (IoErr (NotTwoTokens lineno))
      end
  end.
Definition eg_from_buf (r : reader) : res (io editgraph) := eg_read 0 eg_new (rd_lines r).

(** The pieces of a path between slashes, used by [Path::extension] (io.rs:206). *)
Fixpoint split_slash (buf name : list N) : list (list N) :=
  match name with
  | [] => [buf]
  | c :: name => if (c =? 47)%N then buf :: split_slash [] name else split_slash (buf ++ [c]) name
  end.
(** Models [Path::file_name] on Unix, used by [Path::extension] (io.rs:206): the last component;
    empty components and [.] do not count, and [..] is no name. *)
Definition file_name (name : list N) : option (list N) :=
  f ← last (filter (λ p : list N, p ≠ [] ∧ p ≠ [46%N]) (split_slash [] name));
  if bool_decide (f = [46%N; 46%N]) then None else Some f.
(** The parts before and after the last dot, used by [Path::extension] (io.rs:206). *)
Fixpoint rsplit_dot (f : list N) : option (list N * list N) :=
  match f with
  | [] => None
  | c :: f =>
      match rsplit_dot f with
      | Some (b, a) => Some (c :: b, a)
      | None => if (c =? 46)%N then Some ([], f) else None
      end
  end.
(** Models [path.extension().and_then(OsStr::to_str)] (io.rs:205-206). *)
Definition extension (name : list N) : option (list N) :=
  f ← file_name name;
  match rsplit_dot f with
  | Some ([], _) | None => None
  | Some (_, a) => Some a
  end.

(** The strings [txt] and [gz] (io.rs:208, 212). *)
Definition s_txt : list N := [116; 120; 116]%N.
Definition s_gz : list N := [103; 122]%N.

(** Errors: [File::open] fails (io.rs:209, 213, 228, 234, 158, 172), the name is refused (io.rs:217-221), or [from_buf] fails. *)
Inductive file_error := OpenFailed | BadName | BadData (e : io_error).
Inductive fio (A : Type) := FOk (a : A) | FErr (e : file_error).
Global Arguments FOk {A}.
Global Arguments FErr {A}.

(** The files: what reading each one delivers.  A directory can be opened but not read. *)
Notation fsys := (gmap (list N) reader).

Section with_gzip.
(** Models [GzEncoder] (io.rs:25) and [GzDecoder] (io.rs:214, 235, 175). *)
Context (gz_enc : list N → list N) (gz_dec : reader → reader).

(** Models [open_reader_txt] (io.rs:226-230) and [File::open] in [EditGraph::from_txt] (io.rs:157-167). *)
Definition open_reader_txt (fs : fsys) (name : list N) : fio reader :=
  match fs !! name with Some r => FOk r | None => FErr OpenFailed end.
(** Models [open_reader_gzip] (io.rs:232-237) and the same in [EditGraph::from_gzipped] (io.rs:171-181). *)
Definition open_reader_gzip (fs : fsys) (name : list N) : fio reader :=
  match fs !! name with Some r => FOk (gz_dec r) | None => FErr OpenFailed end.
(** Models [open_reader] (io.rs:204-224). *)
Definition open_reader (fs : fsys) (name : list N) : fio reader :=
  match extension name with
  | Some e =>
      if bool_decide (e = s_txt) then
        match fs !! name with Some r => FOk r | None => FErr OpenFailed end
      else if bool_decide (e = s_gz) then
        match fs !! name with Some r => FOk (gz_dec r) | None => FErr OpenFailed end
      else FErr BadName
  | None => FErr BadName
  end.

(** Models the operator [?] followed by [from_buf] (io.rs:35-36, 40-41, 45-46). *)
Definition load_with {A} (from_buf : reader → res (io A)) (r : fio reader) : res (fio A) :=
  match r with
  | FErr e => Ok (FErr e)
  | FOk r => x ← from_buf r; Ok (match x with IoOk a => FOk a | IoErr e => FErr (BadData e) end)
  end.
(** Models [LoadFromFile::from_txt], [from_gzipped] and [from_file] (io.rs:34-47); for [EditGraph]
    also the overriding [from_txt] and [from_gzipped] (io.rs:157-182). *)
Definition from_txt {A} (from_buf : reader → res (io A)) (fs : fsys) (name : list N) : res (fio A) :=
  load_with from_buf (open_reader_txt fs name).
Definition from_gzipped {A} (from_buf : reader → res (io A)) (fs : fsys) (name : list N) : res (fio A) :=
  load_with from_buf (open_reader_gzip fs name).
Definition from_file {A} (from_buf : reader → res (io A)) (fs : fsys) (name : list N) : res (fio A) :=
  load_with from_buf (open_reader fs name).

(** Models [WriteToFile::write_txt] and [write_gzipped] (io.rs:17-28); [bytes] is what [write_buf]
    writes.  All texts written are ASCII, so their characters are their bytes. *)
Definition write_txt (fs : fsys) (name bytes : list N) : fsys := <[name := Reader bytes true]> fs.
Definition write_gzipped (fs : fsys) (name bytes : list N) : fsys := <[name := Reader (gz_enc bytes) true]> fs.
End with_gzip.
