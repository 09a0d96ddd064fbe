(** SpecLog.v : what is assumed about f64::log2. *)
From Verif Require Import Base SpecEntropy.
From Coq Require Import Reals.
From Flocq Require Import Core BinarySingleNaN.

(** on finite numbers that are at least 1 the function [l2] returns a finite number and its relative error is at most
    [delta] (2^-53 for a correctly rounded logarithm) *)
Definition log2_accurate (l2 : binary_float 53 1024 -> binary_float 53 1024) (delta : R) : Prop :=
  forall x, is_finite x = true -> (1 <= B2R x)%R ->
    is_finite (l2 x) = true /\ (Rabs (B2R (l2 x) - lg (B2R x)) <= delta * lg (B2R x))%R.
(** the unit roundoff of f64, 2^-53 *)
Definition roundoff : R := (/ 2 ^ 53)%R.
