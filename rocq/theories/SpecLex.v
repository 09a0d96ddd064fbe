(** SpecLex.v : the lexparse of a text (Navarro, Ochoa, Prezza). *)
From Verif Require Import Base SpecStr ModelLz.

(** suffix j is the largest suffix of t that is lexicographically smaller than suffix i *)
Definition is_lex_pred (t : str) (j i : nat) : Prop :=
  j < length t /\ lex_lt (skipn j t) (skipn i t) /\
  forall k, k < length t -> lex_lt (skipn k t) (skipn i t) -> lex_le (skipn k t) (skipn j t).
(** f is the lexparse factor at position i: a copy of the longest common prefix of suffix i and its
    lexicographic predecessor, a literal if that prefix is empty or there is no predecessor *)
Definition is_lex_factor (t : str) (i : nat) (f : lzfactor) : Prop :=
  (lz_len f = 0 /\ lz_pos f = nth i t 0 /\
   forall j, is_lex_pred t j i -> is_lcp (skipn j t) (skipn i t) 0) \/
  (0 < lz_len f /\ is_lex_pred t (lz_pos f) i /\ is_lcp (skipn (lz_pos f) t) (skipn i t) (lz_len f)).
(** fs parses the text from position i on *)
Fixpoint is_lexparse (t : str) (i : nat) (fs : list lzfactor) : Prop :=
  match fs with
  | [] => i = length t
  | f :: fs' => i < length t /\ is_lex_factor t i f /\ is_lexparse t (i + Nat.max 1 (lz_len f)) fs'
  end.

(** the last text position of each factor, the first factor starting at position i *)
Fixpoint factor_ends (i : nat) (fs : list lzfactor) : list nat :=
  match fs with
  | [] => []
  | f :: fs' => (i + Nat.max 1 (lz_len f) - 1) :: factor_ends (i + Nat.max 1 (lz_len f)) fs'
  end.
