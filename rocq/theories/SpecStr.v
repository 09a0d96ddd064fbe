(** SpecStr.v : the mathematical vocabulary on strings used to STATE the
    properties. No model function occurs in this file. Strings are [list nat]. *)
From Verif Require Import Base.

Notation str := (list nat).

(** strict lexicographic order (a proper prefix is smaller) *)
Inductive lex_lt : str -> str -> Prop :=
| lex_nil y ys : lex_lt [] (y :: ys)
| lex_head x y xs ys : x < y -> lex_lt (x :: xs) (y :: ys)
| lex_tail x xs ys : lex_lt xs ys -> lex_lt (x :: xs) (x :: ys).

Definition lex_le (u v : str) : Prop := u = v \/ lex_lt u v.

(** rotation (conjugate) starting at position i *)
Definition rot (i : nat) (t : str) : str := skipn i t ++ firstn i t.

(** n-fold repetition *)
Fixpoint power (u : str) (m : nat) : str :=
  match m with O => [] | S m' => u ++ power u m' end.

(** Lyndon word: non-empty and strictly smaller than each of its proper non-empty suffixes *)
Definition lyndon (w : str) : Prop :=
  w <> [] /\ forall u v, w = u ++ v -> u <> [] -> v <> [] -> lex_lt w v.

(** lexicographically non-increasing list of words *)
Fixpoint non_increasing (fs : list str) : Prop :=
  match fs with
  | [] => True
  | f :: fs' => match fs' with [] => True | g :: _ => lex_le g f end /\ non_increasing fs'
  end.

(** fs is a Lyndon factorization of t *)
Definition lyndon_factorization (t : str) (fs : list str) : Prop :=
  concat fs = t /\ Forall lyndon fs /\ non_increasing fs.

(** 0-based ending positions of consecutive factors, the first one starting at [start] *)
Fixpoint ends_from (start : nat) (fs : list str) : list nat :=
  match fs with
  | [] => []
  | f :: fs' => (start + length f - 1) :: ends_from (start + length f) fs'
  end.

(** b is the length of a proper border of u: prefix of length b = suffix of length b, b < |u| *)
Definition is_border (u : str) (b : nat) : Prop :=
  b < length u /\ firstn b u = skipn (length u - b) u.

(** p is a period of t *)
Definition is_period (t : str) (p : nat) : Prop :=
  1 <= p <= length t /\ forall i, i + p < length t -> nth i t 0 = nth (i + p) t 0.

(** primitive: not a proper power *)
Definition primitive (t : str) : Prop := ~ exists u m, 2 <= m /\ t = power u m.

(** l is a permutation of 0 .. n-1 *)
Definition is_perm (n : nat) (l : list nat) : Prop := Permutation l (seq 0 n).

(** sa is the suffix array of t *)
Definition is_suffix_array (t : str) (sa : list nat) : Prop :=
  is_perm (length t) sa /\
  StronglySorted (fun i j => lex_lt (skipn i t) (skipn j t)) sa.

(** l is the length of the longest common prefix of u and v *)
Definition is_lcp (u v : str) (l : nat) : Prop :=
  firstn l u = firstn l v /\ l <= length u /\ l <= length v /\
  (l < length u -> l < length v -> nth l u 0 <> nth l v 0).

(** prenecklace: a prefix of some power of a Lyndon word (= of some necklace power) *)
Definition necklace (t : str) : Prop := forall i, i < length t -> lex_le t (rot i t).
Definition prenecklace (t : str) : Prop := exists u, necklace (t ++ u).

(** occurrence of w in t at position i *)
Definition occurs_at (w t : str) (i : nat) : Prop :=
  i + length w <= length t /\ firstn (length w) (skipn i t) = w.
