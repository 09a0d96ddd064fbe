(** SpecEntropy.v : empirical entropy over the reals (no model functions). *)
From Verif Require Import Base SpecStr.
From Coq Require Import Reals.

Definition sumR (l : list R) : R := fold_right Rplus 0%R l.
(** binary logarithm *)
Definition lg (x : R) : R := (ln x / ln 2)%R.
(** occurrences of the letter c in x *)
Definition occ (x : str) (c : nat) : nat := count_occ Nat.eq_dec x c.
(** zero-order empirical entropy: sum over the letters c of x of (n_c/n) lg (n/n_c) *)
Definition H0 (x : str) : R :=
  sumR (map (fun c => (INR (occ x c) / INR (length x) * lg (INR (length x) / INR (occ x c)))%R) (nodup Nat.eq_dec x)).
(** w occurs in t at position i and is followed by a letter *)
Definition context_at (t w : str) (i : nat) : Prop := occurs_at w t i /\ i + length w < length t.
(** the letters following the occurrences of w in t, from left to right *)
Definition eqb_str (u v : str) : bool := if list_eq_dec Nat.eq_dec u v then true else false.
Definition followers (t w : str) : str :=
  map (fun i => nth (i + length w) t 0)
    (filter (fun i => eqb_str (firstn (length w) (skipn i t)) w && (i + length w <? length t)) (seq 0 (length t))).
(** W lists, without repetition, the words of length k followed by a letter somewhere in t *)
Definition contexts (t : str) (k : nat) (W : list str) : Prop :=
  NoDup W /\ forall w, In w W <-> length w = k /\ exists i, context_at t w i.
(** k-th order empirical entropy of t, with W its contexts *)
Definition Hk (t : str) (W : list str) : R :=
  (sumR (map (fun w => INR (length (followers t w)) * H0 (followers t w)) W) / INR (length t))%R.
