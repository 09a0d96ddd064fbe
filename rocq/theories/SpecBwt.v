(** SpecBwt.v : specification of the BWT variants (no model functions). *)
From Verif Require Import Base SpecStr.

(** all rotations of a word, by starting position *)
Definition rotations (t : str) : list str := map (fun i => rot i t) (seq 0 (length t)).

(** b is the last column of the matrix of lexicographically sorted rotations of t *)
Definition is_matrix_bwt (t b : str) : Prop :=
  exists M, Permutation M (rotations t) /\ StronglySorted lex_le M /\ b = map (fun r => last r 0) M.

(** prefix of length k of the infinite word w w w ... *)
Definition omega_prefix (k : nat) (w : str) : str := map (fun i => nth (i mod length w) w 0) (seq 0 k).
(** omega-order: comparison of the infinite repetitions *)
Definition omega_le (u v : str) : Prop := forall k, lex_le (omega_prefix k u) (omega_prefix k v).

(** b is the bijective BWT of t: last letters of the omega-sorted conjugates of its Lyndon factors *)
Definition is_bijective_bwt (t b : str) : Prop :=
  exists fs W, lyndon_factorization t fs /\ Permutation W (flat_map rotations fs) /\
    StronglySorted omega_le W /\ b = map (fun r => last r 0) W.

(** the letter cyclically preceding position p *)
Definition cyclic_prev (t : str) (p : nat) : nat :=
  match p with O => last t 0 | S q => nth q t 0 end.
