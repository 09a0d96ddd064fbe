(** SpecEnum.v : the extreme lexparse sizes of a word over all relabellings of its letters. *)
From Verif Require Import Base SpecStr ModelLz SpecLex SpecIo.

(** k is the size of the lexparse of t *)
Definition lexparse_size (t : str) (k : nat) : Prop := exists gs, is_lexparse t 0 gs /\ length gs = k.
(** u is w with its letters 'a', 'b', ... (s of them) permuted *)
Definition relabelling (s : nat) (w u : str) : Prop :=
  exists pi, is_perm s pi /\ u = map (fun c => 97 + nth (c - 97) pi 0) w.
(** over all relabellings of w, with an end marker 0, u1 has the smallest and u2 the largest lexparse, and
    the sizes differ by d *)
Definition size_range (s : nat) (w : str) (d : nat) (u1 u2 : str) : Prop :=
  relabelling s w u1 /\ relabelling s w u2 /\
  exists k1 k2, lexparse_size (u1 ++ [0]) k1 /\ lexparse_size (u2 ++ [0]) k2 /\ k2 = k1 + d /\
    forall u k, relabelling s w u -> lexparse_size (u ++ [0]) k -> k1 <= k <= k2.
(** the line  d: "u1\0" <-> "u2\0"  (dec: decimal digits of d) *)
Definition range_line (dec u1 u2 : str) : str :=
  dec ++ [58;32;34] ++ u1 ++ [92;48;34;32;60;45;62;32;34] ++ u2 ++ [92;48;34;10].

(** the order in which the words are visited: by reversed words (the first letter changes fastest) *)
Definition before (w' w : str) : Prop := lex_lt (rev w') (rev w).
(** w is a record among the words of length n over s letters: no earlier word has a larger difference *)
Definition is_record (s : nat) (n : nat) (w : str) : Prop :=
  (length w = n /\ Forall (fun c => 97 <= c < 97 + s) w) /\
  forall w' d d' u1 u2 u1' u2', length w' = n -> Forall (fun c => 97 <= c < 97 + s) w' -> before w' w ->
    size_range s w' d' u1' u2' -> size_range s w d u1 u2 -> d' <= d.
(** out consists of one line for each word w with its difference and its two texts *)
Inductive record_lines : list (str * (nat * str * str)) -> str -> Prop :=
| rl_nil : record_lines [] []
| rl_cons w d u1 u2 rs ds out : is_decimal ds d -> record_lines rs out ->
    record_lines ((w, (d, u1, u2)) :: rs) (range_line ds u1 u2 ++ out).
