(** Specification of the text formats read by io.rs, independent of the readers. *)
From Verif Require Import Base.

(** Unicode White_Space. *)
Definition blank (c : N) : Prop :=
  c ∈ [9; 10; 11; 12; 13; 32; 133; 160; 5760; 8192; 8193; 8194; 8195; 8196; 8197; 8198; 8199; 8200; 8201; 8202;
       8232; 8233; 8239; 8287; 12288]%N.

(** A text consists of these lines: each ends with LF or CRLF, the last may be unterminated. *)
Inductive text_lines : list N → list (list N) → Prop :=
| TL_end : text_lines [] []
| TL_last l : l ≠ [] → 10%N ∉ l → text_lines l [l]
| TL_lf l t ls : 10%N ∉ l → (∀ l', l ≠ l' ++ [13%N]) → text_lines t ls → text_lines (l ++ 10%N :: t) (l :: ls)
| TL_crlf l t ls : 10%N ∉ l → text_lines t ls → text_lines (l ++ 13%N :: 10%N :: t) (l :: ls).

(** The value of a digit string. *)
Fixpoint dec_value (ds : list N) : N :=
  match ds with [] => 0 | c :: ds => (c - 48) * 10 ^ N.of_nat (length ds) + dec_value ds end%N.
(** [s] denotes the 32-bit number [n]: digits, with an optional plus sign. *)
Definition denotes (s : list N) (n : N) : Prop :=
  ∃ ds, (s = ds ∨ s = 43%N :: ds) ∧ ds ≠ [] ∧ Forall (λ c, 48 <= c ∧ c <= 57)%N ds ∧ n = dec_value ds ∧ (n < 4294967296)%N.

(** A line holding one vertex, and below a line holding an edge. *)
Definition vertex_line (l : list N) (u : N) : Prop :=
  ∃ w1 a w2, l = w1 ++ a ++ w2 ∧ Forall blank w1 ∧ Forall blank w2 ∧ denotes a u.
(** The line consists of exactly the two tokens [a] and [b]. *)
Definition line_tokens (l a b : list N) : Prop :=
  ∃ w0 w1 w2, l = w0 ++ a ++ w1 ++ b ++ w2 ∧ Forall blank w0 ∧ Forall blank w1 ∧ w1 ≠ [] ∧ Forall blank w2 ∧
    a ≠ [] ∧ b ≠ [] ∧ Forall (λ c, ¬ blank c) a ∧ Forall (λ c, ¬ blank c) b.
Definition edge_line (l : list N) (e : N * N) : Prop :=
  ∃ a b, line_tokens l a b ∧ denotes a e.1 ∧ denotes b e.2.
