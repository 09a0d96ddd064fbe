(** SpecCost.v : what a bound on the number of steps means (no model functions). *)
From Verif Require Import Base.

(** [counted] is the function [plain] with a step counter: it returns the same values and panics in the same cases,
    and whenever it returns, it has counted at most [bound] steps *)
Definition within {A} (counted : res (A * nat)) (plain : res A) (bound : nat) : Prop :=
  (forall r, plain = Ok r <-> exists c, counted = Ok (r, c)) /\ (plain = Panic <-> counted = Panic) /\
  (forall r c, counted = Ok (r, c) -> c <= bound).

(** [k] calls of a counted [next]: everything it returned and the sum of the counts *)
Fixpoint total {G A} (next : G -> res ((option A * G) * nat)) (k : nat) (g : G) : res (list (option A) * nat) :=
  match k with
  | O => Ok ([], 0)
  | S j => ' (r, c) <- next g ;; let '(o, g') := r in ' (l, d) <- total next j g' ;; Ok (o :: l, c + d)
  end.
