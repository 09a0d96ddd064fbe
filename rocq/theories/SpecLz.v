(** SpecLz.v : specification of LZ77 parsings, lexparse consistency and minimal unique substrings. *)
From Verif Require Import Base SpecStr ModelLz.

(** text[j..j+l) = text[i..i+l), both inside the text *)
Definition same_substring (t : str) (j i l : nat) : Prop :=
  j + l <= length t /\ i + l <= length t /\ forall x, x < l -> nth (j + x) t 0 = nth (i + x) t 0.

(** f is the LZ77 factor at position i: a literal if the letter did not occur before, otherwise a copy
    of the longest previous factor, [lz_pos] being the distance to an earlier occurrence *)
Definition is_lz77_factor (t : str) (i : nat) (f : lzfactor) : Prop :=
  (lz_len f = 0 /\ lz_pos f = nth i t 0 /\ forall j, j < i -> nth j t 0 <> nth i t 0) \/
  (0 < lz_len f /\ 1 <= lz_pos f <= i /\ same_substring t (i - lz_pos f) i (lz_len f) /\
   forall j l, j < i -> same_substring t j i l -> l <= lz_len f).
(** fs parses the text from position i on *)
Fixpoint is_lz77_parsing (t : str) (i : nat) (fs : list lzfactor) : Prop :=
  match fs with
  | [] => i = length t
  | f :: fs' => i < length t /\ is_lz77_factor t i f /\ is_lz77_parsing t (i + Nat.max 1 (lz_len f)) fs'
  end.

(** the rest of the text from position i can be parsed into k literals and copies of earlier occurrences *)
Inductive parsable (t : str) : nat -> nat -> Prop :=
| parse_end : parsable t (length t) 0
| parse_literal i k : i < length t -> parsable t (i + 1) k -> parsable t i (S k)
| parse_copy i j l k : j < i -> 1 <= l -> same_substring t j i l -> parsable t (i + l) k -> parsable t i (S k).

(** x is consistent with the factors from position i on: literals give letters, a factor (pos, len)
    says that len letters are equal to those starting at the absolute position pos *)
Fixpoint consistent (x : str) (i : nat) (fs : list lzfactor) : Prop :=
  match fs with
  | [] => i = length x
  | f :: fs' => (if lz_len f =? 0 then i < length x /\ nth i x 0 = lz_pos f
                 else same_substring x (lz_pos f) i (lz_len f)) /\
                consistent x (i + Nat.max 1 (lz_len f)) fs'
  end.

(** the substring of s at i of length l occurs only once *)
Definition unique_substring (s : str) (i l : nat) : Prop :=
  i + l <= length s /\ forall j, same_substring s j i l -> j = i.
(** minimal unique substring: unique, and no proper substring occurrence inside it is unique *)
Definition is_mus (s : str) (i l : nat) : Prop :=
  1 <= l /\ unique_substring s i l /\
  forall i' l', i <= i' -> i' + l' <= i + l -> l' < l -> ~ unique_substring s i' l'.
