(** PropsSort.v : property theorems C102 (results do not depend on how the standard library sorts). *)
From Verif Require Import Base SpecStr SpecBwt SpecSort LexFacts ModelCore ModelLz ModelMain ModelEnum ModelSort PermFacts SortFacts
  BwtFacts BwtProof BbwtProof SortProof.

(** C102: with any correct sorting procedure, stable or not, the naive transforms and the naive suffix array are the same *)
Theorem C102_bwt : forall (sort : sorting nat) t, sorter sort -> bwt_by_matrix_naive_with sort t = bwt_by_matrix_naive t.
Proof.
  intros sort t H. destruct (bwt_by_matrix_naive_with_ok sort t H) as (b & E & HB). rewrite E. symmetry. now apply bwt_by_matrix_naive_spec.
Qed.
Print Assumptions C102_bwt.
Theorem C102_suffixarray : forall (sort : sorting nat) t, sorter sort -> suffixarray_naive_with sort t = suffixarray_naive t.
Proof.
  intros sort t H. destruct (suffixarray_naive_with_ok sort t H) as (s & E & HS).
  destruct (suffixarray_naive_ok t) as (s' & E' & HS'). rewrite E, E'. f_equal. exact (suffix_array_unique _ _ _ HS HS').
Qed.
Print Assumptions C102_suffixarray.
Theorem C102_bbwt : forall (sort : sorting conjugate) t, sorter sort -> bbwt_naive_with sort t = bbwt_naive t.
Proof.
  intros sort t H. destruct t as [|c t]; [now vm_compute|].
  destruct (bbwt_naive_with_ok sort (c :: t) H ltac:(discriminate)) as (b & E & HB). rewrite E. symmetry. now apply bbwt_naive_spec.
Qed.
Print Assumptions C102_bbwt.
(** two stable sorting procedures give the same list, and the model's insertion sort is one: Rust documents slice::sort_by
    as stable *)
Theorem C102_stable_unique : forall A (sort : sorting A) cmp D c l, stable_sorter sort ->
  computes cmp D c -> total_preorder D c -> Forall D l -> sort cmp l = sort_by cmp l.
Proof. intros A sort cmp D c l H H1 H2 H3. exact (stable_sorters_agree A sort _ cmp D c l H (sort_by_is_stable A) H1 H2 H3). Qed.
Print Assumptions C102_stable_unique.
Theorem C102_sort_by_stable : forall A, stable_sorter (@sort_by A) /\ sorter (@sort_by A).
Proof. intros A. split; [|apply stable_is_sorter]; apply sort_by_is_stable. Qed.
Print Assumptions C102_sort_by_stable.
(** what enumerate_lexparse prints is fixed by stability *)
Theorem C102_enumerate : forall (list_sort : sorting (nat * str)) sort n s, stable_sorter list_sort ->
  enumerate_lexparse_main_with list_sort sort n s = enumerate_lexparse_main sort n s.
Proof.
  intros ls sort n s H. unfold enumerate_lexparse_main_with, enumerate_lexparse_main.
  destruct (kmer_generator n s) as [g| |]; [|reflexivity|reflexivity]. cbn [bind].
  rewrite (for_in_ext g (enum_step_with ls sort s) (enum_step sort s)); [reflexivity|]. intros i st. now apply enum_step_stable.
Qed.
Print Assumptions C102_enumerate.
(** ... and not by correctness alone: a correct sorting procedure that is not stable prints other words *)
Definition reversing {A} : sorting A := fun cmp l => sort_by cmp (rev l).
Lemma reversing_sorter A : sorter (@reversing A).
Proof.
  intros cmp D c l H1 H2 H3. destruct (proj2 (C102_sort_by_stable A) cmp D c (rev l) H1 H2) as (s & E & HP & HS).
  - apply Forall_rev. exact H3.
  - exists s. split; [exact E|]. split; [|exact HS]. rewrite HP. symmetry. apply Permutation_rev.
Qed.
Theorem C102_unstable_refuted : exists list_sort : sorting (nat * str), sorter list_sort /\
  exists n s, enumerate_lexparse_main_with list_sort naive_sort n s <> enumerate_lexparse_main naive_sort n s.
Proof. exists reversing. split; [apply reversing_sorter|]. exists 1, 2. vm_compute. discriminate. Qed.
Print Assumptions C102_unstable_refuted.
(** abab has equal rotations, so the sorted order of the rotations is not unique, but the transform is *)
Example C102_case : let t := [97;98;97;98] in
  sort_by (rot_cmp t) (seq 0 4) = Ok [0;2;1;3] /\ reversing (rot_cmp t) (seq 0 4) = Ok [2;0;3;1] /\
  bwt_by_matrix_naive_with reversing t = Ok [98;98;97;97] /\ bbwt_naive_with reversing t = Ok [98;98;97;97] /\
  suffixarray_naive_with reversing t = Ok [2;0;3;1].
Proof. vm_compute. repeat split. Qed.
