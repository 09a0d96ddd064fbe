(** SpecSub.v : substring complexity, for C118. *)
From Verif Require Import Base SpecStr.

(** the substrings of length m of s, one for each place *)
Definition substrings (m : nat) (s : str) : list str := map (fun i => firstn m (skipn i s)) (seq 0 (length s + 1 - m)).
(** the number of different substrings of length m *)
Definition distinct (m : nat) (s : str) : nat := length (nodup (list_eq_dec Nat.eq_dec) (substrings m s)).
(** f a + f (a+1) + ... + f b *)
Definition sum_from_to (a b : nat) (f : nat -> nat) : nat := list_sum (map f (seq a (S b - a))).
