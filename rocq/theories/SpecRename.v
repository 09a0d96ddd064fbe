(** SpecRename.v : renamings of the letters of a text. *)
From Verif Require Import Base SpecStr ModelLz.

(** f keeps different letters of t different *)
Definition keeps_letters (f : nat -> nat) (t : str) : Prop :=
  forall x y, In x t -> In y t -> f x = f y -> x = y.
(** f keeps the order of the letters of t *)
Definition keeps_order (f : nat -> nat) (t : str) : Prop :=
  forall x y, In x t -> In y t -> x < y -> f x < f y.
(** the factor after the renaming: a literal shows the new letter, a copy is the same *)
Definition rename_factor (f : nat -> nat) (g : lzfactor) : lzfactor :=
  if lz_len g =? 0 then LZ (f (lz_pos g)) 0 else g.
