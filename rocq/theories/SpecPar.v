(** SpecPar.v : specification vocabulary for unfinished/parallel.rs (no model functions). *)
From Verif Require Import Base SpecStr SpecBwt SpecIo.

(** the BWT (last column of the sorted rotations) of w has r runs *)
Definition bwt_runs_of (w : str) (r : nat) : Prop :=
  exists b rs, is_matrix_bwt w b /\ is_runs b rs /\ r = length rs.
(** the bijective BWT of w has r runs *)
Definition bbwt_runs_of (w : str) (r : nat) : Prop :=
  exists b rs, is_bijective_bwt w b /\ is_runs b rs /\ r = length rs.
(** m is the least number of runs of the bijective BWT of a conjugate of w, capped by [bound] *)
Definition least_bbwt_runs (bound : nat) (w : str) (m : nat) : Prop :=
  (m = bound \/ exists i, i < length w /\ bbwt_runs_of (rot i w) m) /\ m <= bound /\
  forall i r, i < length w -> bbwt_runs_of (rot i w) r -> m <= r.
(** exactly n words satisfy P *)
Definition number_of (P : str -> Prop) (n : nat) : Prop :=
  exists L, NoDup L /\ (forall w, In w L <-> P w) /\ length L = n.
(** binary Lyndon words of length p *)
Definition binary_lyndon (p : nat) (w : str) : Prop := lyndon w /\ length w = p /\ Forall (fun c => c < 2) w.
(** exactly n pairs (binary Lyndon word w of length p, conjugate index i) have P (runs of the BWT of w)
    (runs of the bijective BWT of the conjugate of w starting at i) *)
Definition number_of_conjugates (p : nat) (P : nat -> nat -> Prop) (n : nat) : Prop :=
  exists L : list (str * nat), NoDup L /\ length L = n /\ forall w i, In (w, i) L <->
    binary_lyndon p w /\ i < p /\ exists r b, bwt_runs_of w r /\ bbwt_runs_of (rot i w) b /\ P r b.
(** fs has exactly n distinct members *)
Definition distinct_members (fs : list str) (n : nat) : Prop :=
  exists D, NoDup D /\ (forall f, In f D <-> In f fs) /\ length D = n.
(** the first two members are different words of the same length that agree except for the last letter *)
Definition first_two_differ_in_last_letter (fs : list str) : Prop :=
  exists u x y rest, fs = (u ++ [x]) :: (u ++ [y]) :: rest /\ x <> y.
