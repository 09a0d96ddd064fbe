(** SpecAttr.v : string attractors. *)
From Verif Require Import Base SpecStr SpecLz.

(** every non-empty substring of s has an occurrence that contains a position of A *)
Definition string_attractor (s : str) (A : list nat) : Prop :=
  forall i l, 1 <= l -> i + l <= length s ->
    exists j a, same_substring s j i l /\ In a A /\ j <= a < j + l.
(** no occurrence of the substring at i of length l contains a position of A *)
Definition uncovered (s : str) (A : list nat) (i l : nat) : Prop :=
  1 <= l /\ i + l <= length s /\ forall j a, same_substring s j i l -> In a A -> ~ (j <= a < j + l).
(** the substring at i of length m is empty, or has another occurrence that continues differently (the end of the
    text is a continuation of its own) *)
Definition right_maximal (s : str) (i m : nat) : Prop :=
  m = 0 \/ exists j, same_substring s j i m /\ nth_error s (j + m) <> nth_error s (i + m).
(** the words the program reports: uncovered, and right-maximal after removing the last letter *)
Definition reported (s : str) (A : list nat) (w : str) : Prop :=
  exists i, uncovered s A i (length w) /\ w = firstn (length w) (skipn i s) /\ right_maximal s i (length w - 1).
(** the order in which they are shown: lexicographic, but a word comes before its proper prefixes *)
Definition before (u v : str) : Prop :=
  (exists x, x <> [] /\ u = v ++ x) \/ (lex_lt u v /\ forall x, v <> u ++ x).
