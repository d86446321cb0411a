(** Model of [WriteToFile] (io.rs:16-31, 65-73, 88-108) on devices that may refuse bytes.  [BufWriter]
    is modelled as in the Rust standard library, [GzEncoder] as in flate2: it buffers compressed
    bytes, and writes the end of the stream when it is dropped, ignoring errors; the [zio::Writer] in it
    then tries once more.  Simplified:
    [ErrorKind::Interrupted], on which the library retries, does not occur; the compressor accepts all
    bytes it is offered at once; [File::flush] never fails (it does nothing). *)
From Verif Require Import Base M_Graph M_Iterators M_IO.

(** The file created at io.rs:18 and 24: the number of [write] calls so far, and the bytes stored. *)
Record device := Device { dv_calls : nat; dv_data : list N }.
Definition dev_new : device := Device 0 [].

(** A [BufWriter] (io.rs:19, 26): buffered bytes, the writer below. *)
Record bufw (W : Type) := BufW { bw_buf : list N; bw_inner : W }.
Global Arguments BufW {W}.
Global Arguments bw_buf {W}.
Global Arguments bw_inner {W}.

Section with_device.
(** The answer of the device to [write], from the number of calls and of bytes before it: [None] is an
    error, [Some k] stores at most [k+1] bytes. *)
Context (ans : nat → nat → option nat).

(** Offers bytes to [File::write] until all are stored or it fails, as [write_all], [BufWriter::flush_buf]
    and flate2's [dump] do (io.rs:68, 70, 91, 93, 102, 104); [skip] bytes were accepted in the call
    under way.  Returns the bytes that were not stored. *)
Fixpoint dev_put (d : device) (skip : nat) (bs : list N) : device * list N * bool :=
  match bs with
  | [] => (d, [], true)
  | b :: bs' =>
      match skip with
      | S skip => dev_put (Device (dv_calls d) (dv_data d ++ [b])) skip bs'
      | 0 =>
          match ans (dv_calls d) (length (dv_data d)) with
          | None => (Device (S (dv_calls d)) (dv_data d), bs, false)
          | Some k => dev_put (Device (S (dv_calls d)) (dv_data d ++ [b])) k bs'
          end
      end
  end.

Section bufwriter.
(** The writer below: offering it bytes, [flush], and its destructor. *)
Context {W : Type} (put : W → list N → W * list N * bool) (flush : W → W * bool) (fin : W → W).
(** The capacity of the buffer, 8192 bytes for [BufWriter::new] (io.rs:19, 26). *)
Context (cap : nat).

(** Models [BufWriter::flush_buf], called by the next three. *)
Definition bw_flush_buf (b : bufw W) : bufw W * bool :=
  let '(w, rest, ok) := put (bw_inner b) (bw_buf b) in (BufW rest w, ok).
(** Models [BufWriter::write_all] (io.rs:68, 91, 102). *)
Definition bw_write_all (b : bufw W) (bs : list N) : bufw W * bool :=
  if length bs <? cap - length (bw_buf b) then (BufW (bw_buf b ++ bs) (bw_inner b), true)
  else
    let '(b, ok) := if cap - length (bw_buf b) <? length bs then bw_flush_buf b else (b, true) in
    if ok : bool then
      if cap <=? length bs then let '(w, _, ok) := put (bw_inner b) bs in (BufW (bw_buf b) w, ok)
      else (BufW (bw_buf b ++ bs) (bw_inner b), true)
    else (b, false).
(** Models [BufWriter::flush] (io.rs:70, 93, 104). *)
Definition bw_flush (b : bufw W) : bufw W * bool :=
  let '(b, ok) := bw_flush_buf b in
  if ok : bool then let '(w, ok) := flush (bw_inner b) in (BufW (bw_buf b) w, ok) else (b, false).
(** Models [BufWriter::drop] at the end of [write_buf] (io.rs:72, 97, 108). *)
Definition bw_drop (b : bufw W) : W := fin (bw_inner (bw_flush_buf b).1).

(** Models the loops of [write_buf] (io.rs:67-69, 90-92, 101-103): each piece is written with [?]. *)
Fixpoint write_pieces (b : bufw W) (ps : list (list N)) : bufw W * bool :=
  match ps with
  | [] => (b, true)
  | p :: ps => let '(b, ok) := bw_write_all b p in if ok : bool then write_pieces b ps else (b, false)
  end.
(** Models [write_buf] (io.rs:65-73, 88-97, 99-108): the loop, [flush] with [?], and the destructor,
    which runs in any case. *)
Definition write_buf (w : W) (ps : list (list N)) : W * bool :=
  let '(b, ok) := write_pieces (BufW [] w) ps in
  let '(b, ok) := if ok : bool then bw_flush b else (b, false) in
  (bw_drop b, ok).
End bufwriter.

(** Models [write_txt] (io.rs:17-21): [created] is the result of [File::create]; the last component
    is what the file then holds. *)
Definition write_txt_dev (cap : nat) (created : bool) (ps : list (list N)) : bool * list N :=
  if created then
    let '(d, ok) := write_buf (λ d, dev_put d 0) (λ d, (d, true)) (λ d, d) cap dev_new ps in (ok, dv_data d)
  else (false, []).

Section with_gzip.
(** The compressor of flate2 (io.rs:25): the header of the stream, its state, what it emits for a
    block of input, for a sync flush, and at the end, and the checksum after that. *)
Context (gz_header : list N) (C : Type) (c_new : C) (c_step : C → list N → C * list N) (c_sync : C → C * list N) (c_end c_crc : C → list N).

(** A [GzEncoder] (io.rs:25): header bytes not yet written, compressor, compressed bytes not yet
    written, whether the compressor has emitted the end, the file. *)
Record gzw := Gzw { gz_hdr : list N; gz_comp : C; gz_pend : list N; gz_ended : bool; gz_dev : device }.
(** Models [GzEncoder::new] (io.rs:25). *)
Definition gz_new : gzw := Gzw gz_header c_new [] false dev_new.
(** Models [GzEncoder::write_header], called by [write], [flush] and [drop] (io.rs:68, 70, 72). *)
Definition gz_write_header (g : gzw) : gzw * bool :=
  let '(d, rest, ok) := dev_put (gz_dev g) 0 (gz_hdr g) in (Gzw rest (gz_comp g) (gz_pend g) (gz_ended g) d, ok).
(** Models [zio::Writer::dump], called by [write], [flush] and [drop] (io.rs:68, 70, 72). *)
Definition gz_dump (g : gzw) : gzw * bool :=
  let '(d, rest, ok) := dev_put (gz_dev g) 0 (gz_pend g) in (Gzw (gz_hdr g) (gz_comp g) rest (gz_ended g) d, ok).
(** Models [GzEncoder::write], offered bytes by the [BufWriter] (io.rs:68, 70). *)
Definition gz_put (g : gzw) (bs : list N) : gzw * list N * bool :=
  match bs with
  | [] => (g, [], true)
  | _ =>
      let '(g, ok) := gz_write_header g in
      if ok : bool then
        let '(g, ok) := gz_dump g in
        if ok : bool then let '(c, out) := c_step (gz_comp g) bs in (Gzw (gz_hdr g) c (gz_pend g ++ out) (gz_ended g) (gz_dev g), [], true)
        else (g, bs, false)
      else (g, bs, false)
  end.
(** Models [GzEncoder::flush] (io.rs:70, 93, 104). *)
Definition gz_flush (g : gzw) : gzw * bool :=
  let '(g, ok) := gz_write_header g in
  if ok : bool then
    let '(c, out) := c_sync (gz_comp g) in gz_dump (Gzw (gz_hdr g) c (gz_pend g ++ out) (gz_ended g) (gz_dev g))
  else (g, false).
(** Models [zio::Writer::finish], called by the destructors (io.rs:72, 97, 108). *)
Definition gz_finish (g : gzw) : gzw * bool :=
  let '(g, ok) := gz_dump g in
  if ok : bool then
    if gz_ended g then (g, true) else gz_dump (Gzw (gz_hdr g) (gz_comp g) (c_end (gz_comp g)) true (gz_dev g))
  else (g, false).
(** Models [GzEncoder::try_finish], called by the destructor (io.rs:72, 97, 108). *)
Definition gz_try_finish (g : gzw) : gzw * bool :=
  let '(g, ok) := gz_write_header g in
  if ok : bool then
    let '(g, ok) := gz_finish g in
    if ok : bool then
      let '(d, _, ok) := dev_put (gz_dev g) 0 (c_crc (gz_comp g)) in (Gzw (gz_hdr g) (gz_comp g) (gz_pend g) (gz_ended g) d, ok)
    else (g, false)
  else (g, false).
(** Models [GzEncoder::drop] and then [zio::Writer::drop] (io.rs:72, 97, 108), which ignore errors. *)
Definition gz_drop (g : gzw) : gzw := (gz_finish (gz_try_finish g).1).1.

(** Models [write_gzipped] (io.rs:23-28). *)
Definition write_gz_dev (cap : nat) (created : bool) (ps : list (list N)) : bool * list N :=
  if created then
    let '(g, ok) := write_buf gz_put gz_flush gz_drop cap gz_new ps in (ok, dv_data (gz_dev g))
  else (false, []).

(** What a [GzEncoder] emits for the blocks [bl] (io.rs:25-27). *)
Fixpoint gz_blocks (c : C) (bl : list (list N)) : C * list N :=
  match bl with
  | [] => (c, [])
  | b :: bl => let '(c, out) := c_step c b in let '(c, rest) := gz_blocks c bl in (c, out ++ rest)
  end.
End with_gzip.
End with_device.

Section with_iter.
Context `{HI : HashIter}.
(** The pieces written by [write_buf] for [Vec<Vertex>] (io.rs:91), [VertexSet] (io.rs:68) and graphs (io.rs:102). *)
Definition vec_pieces (l : list N) : list (list N) := (λ u, fmt_u32 u ++ [10%N]) <$> l.
Definition vset_pieces (s : gset N) : list (list N) := vec_pieces (hash_iter 60 s).
Definition graph_pieces (G : graph) : res (list (list N)) :=
  es ← edges G; Ok (map (λ e : N * N, fmt_u32 e.1 ++ [32%N] ++ fmt_u32 e.2 ++ [10%N]) es).
End with_iter.
