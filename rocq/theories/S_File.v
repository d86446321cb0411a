(** Specification of UTF-8 and of file names, independent of the readers. *)
From Verif Require Import Base.

(** Unicode scalar values. *)
Definition scalar (c : N) : Prop := (c < 55296 ∨ (57344 <= c ∧ c < 1114112))%N.
(** The UTF-8 encoding. *)
Definition utf8_char (c : N) : list N :=
  (if c <? 128 then [c]
   else if c <? 2048 then [192 + c / 64; 128 + c mod 64]
   else if c <? 65536 then [224 + c / 4096; 128 + c / 64 mod 64; 128 + c mod 64]
   else [240 + c / 262144; 128 + c / 4096 mod 64; 128 + c / 64 mod 64; 128 + c mod 64])%N.
Definition utf8 (t : list N) : list N := concat (utf8_char <$> t).
Definition valid_utf8 (bs : list N) : Prop := ∃ t, Forall scalar t ∧ bs = utf8 t.

(** [name] names a file with extension [e]: a directory part, a non-empty stem, a dot, [e] without
    dot or slash, and possibly trailing [/] and [/.]. *)
Definition has_extension (name e : list N) : Prop :=
  ∃ dir stem tail, name = dir ++ stem ++ [46%N] ++ e ++ concat tail ∧ (dir = [] ∨ ∃ d, dir = d ++ [47%N]) ∧
    stem ≠ [] ∧ 47%N ∉ stem ∧ 47%N ∉ e ∧ 46%N ∉ e ∧ ¬ (stem = [46%N] ∧ e = []) ∧
    Forall (λ p, p = [47%N] ∨ p = [47%N; 46%N]) tail.

(** The bytes consist of these terminated lines (without their LF) and an unterminated tail. *)
Definition byte_lines (bs : list N) (ls : list (list N)) (tail : list N) : Prop :=
  bs = concat ((λ l, l ++ [10%N]) <$> ls) ++ tail ∧ Forall (λ l, 10%N ∉ l) ls ∧ 10%N ∉ tail.
(** A terminated line encodes this text, possibly followed by CR. *)
Definition decoded (l t : list N) : Prop :=
  Forall scalar t ∧ ((l = utf8 t ∧ ∀ t', t ≠ t' ++ [13%N]) ∨ l = utf8 (t ++ [13%N])).
(** Line [i] cannot be read, as it is not UTF-8 or the reader fails there ([ok] is false), and all
    lines before it are [good]. *)
Definition unreadable_after (good : list N → Prop) (bs : list N) (ok : bool) : Prop :=
  ∃ ls tail i, byte_lines bs ls tail ∧ (∀ j l, j < i → ls !! j = Some l → ∃ t, decoded l t ∧ good t) ∧
    ((∃ l, ls !! i = Some l ∧ ¬ valid_utf8 l) ∨ (i = length ls ∧ (ok = false ∨ ¬ valid_utf8 tail))).
