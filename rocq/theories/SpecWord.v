(** SpecWord.v : the classical infinite words, defined without reference to the model.
    Letters: a = 97, b = 98, c = 99. *)
From Verif Require Import Base SpecStr.
From Coq Require Import NArith.

(** Fibonacci and tribonacci numbers *)
Fixpoint fib (n : nat) : N :=
  match n with
  | O => 0%N
  | S m => match m with O => 1%N | S l => (fib m + fib l)%N end
  end.
(** lengths of the tribonacci words: 1, 2, 4, 7, 13, ... *)
Fixpoint trib (n : nat) : N :=
  match n with
  | O => 1%N
  | S m => match m with
           | O => 2%N
           | S l => match l with O => 4%N | S j => (trib m + trib l + trib j)%N end
           end
  end.

(** finite Fibonacci words f_0 = a, f_1 = ab, f_{k+2} = f_{k+1} f_k *)
Fixpoint fib_word (k : nat) : str :=
  match k with
  | O => [97]
  | S m => match m with O => [97; 98] | S l => fib_word m ++ fib_word l end
  end.
(** finite tribonacci words t_0 = a, t_1 = ab, t_2 = abac, t_{k+3} = t_{k+2} t_{k+1} t_k *)
Fixpoint trib_word (k : nat) : str :=
  match k with
  | O => [97]
  | S m => match m with
           | O => [97; 98]
           | S l => match l with O => [97; 98; 97; 99] | S j => trib_word m ++ trib_word l ++ trib_word j end
           end
  end.

(** k-fold application of the morphism h to the word w *)
Definition iter_morphism (h : nat -> str) (k : nat) (w : str) : str := Nat.iter k (flat_map h) w.

(** number of one digits in the binary expansion of i *)
Definition ones (i : nat) : nat := length (filter (Nat.testbit i) (seq 0 (S i))).

(** w contains no non-empty factor xx *)
Definition square_free (w : str) : Prop := forall u x v, w = u ++ x ++ x ++ v -> x = [].

Definition prefix (p w : str) : Prop := exists r, w = p ++ r.
