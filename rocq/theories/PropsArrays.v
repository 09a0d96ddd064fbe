(** PropsArrays.v : property theorems C05-C12. *)
From Verif Require Import Base SpecStr LexFacts ModelCore PermFacts SortFacts BorderProof LcpProof.
From Coq Require Import NArith.

(** C05: entry i (1<=i<=n) is the length of the longest proper border of text[0..i). *)
Theorem C05_border_array_longest_borders : forall t : str,
  exists B, border_array t = Ok B /\ length B = S (length t) /\ nth 0 B 0 = 0 /\
  forall i, 1 <= i <= length t ->
    is_border (firstn i t) (nth i B 0) /\
    forall b, is_border (firstn i t) b -> b <= nth i B 0.
Proof. exact border_array_correct. Qed.
Print Assumptions C05_border_array_longest_borders.
Example C05_case : border_array [1;2;1;1;2;1] = Ok [0;0;0;1;1;2;3].
Proof. reflexivity. Qed.

(** C06 *)
Theorem C06_smallest_period : forall t : str, t <> [] ->
  exists B p, border_array t = Ok B /\ smallest_period B = Ok p /\
    is_period t p /\ forall q, is_period t q -> p <= q.
Proof. exact smallest_period_ok. Qed.
Print Assumptions C06_smallest_period.
Example C06_case : smallest_period [0;0;0;1;1;2;3] = Ok 3.
Proof. reflexivity. Qed.

(** C07 *)
Theorem C07_is_primitive_decides : forall t : str, t <> [] ->
  exists b, is_primitive t = Ok b /\ (b = true <-> primitive t).
Proof. exact is_primitive_correct. Qed.
Print Assumptions C07_is_primitive_decides.
Theorem C07_is_primitive_empty : is_primitive [] = Ok true.
Proof. exact is_primitive_empty. Qed.
Print Assumptions C07_is_primitive_empty.
Example C07_case : is_primitive [1;2;1;2] = Ok false /\ is_primitive [1;2;1;2;1] = Ok true.
Proof. split; reflexivity. Qed.

(** C08 *)
Theorem C08_suffixarray_naive : forall t : str,
  exists sa, suffixarray_naive t = Ok sa /\ is_suffix_array t sa /\
    forall sa', is_suffix_array t sa' -> sa' = sa.
Proof.
  intros t. destruct (suffixarray_naive_ok t) as (sa & E & H). exists sa. split; [exact E|].
  split; [exact H|]. intros sa' H'. exact (suffix_array_unique t sa' sa H' H).
Qed.
Print Assumptions C08_suffixarray_naive.
Example C08_case : suffixarray_naive [2;1;2;1;0] = Ok [4;3;1;2;0].
Proof. reflexivity. Qed.

(** C09 *)
Theorem C09_inverse_permutation : forall n arr, is_perm n arr ->
  exists inv, inverse_permutation arr = Ok inv /\ is_perm n inv /\
   (forall i, i < n -> nth (nth i arr 0) inv 0 = i) /\
   (forall j, j < n -> nth (nth j inv 0) arr 0 = j).
Proof. exact inverse_permutation_spec. Qed.
Print Assumptions C09_inverse_permutation.
Theorem C09_inverse_permutation_involutive : forall n arr inv, is_perm n arr ->
  inverse_permutation arr = Ok inv -> inverse_permutation inv = Ok arr.
Proof. exact inverse_permutation_involutive. Qed.
Print Assumptions C09_inverse_permutation_involutive.
Theorem C09_inverse_permutation_out_of_range : forall arr x,
  In x arr -> length arr <= x -> inverse_permutation arr = Panic.
Proof. exact inverse_permutation_panic. Qed.
Print Assumptions C09_inverse_permutation_out_of_range.
Example C09_case : is_perm 4 [2;0;3;1] /\ inverse_permutation [2;0;3;1] = Ok [1;3;0;2].
Proof.
  split; [|reflexivity]. apply is_perm_intro; [reflexivity| |].
  - intros [|[|[|[|i]]]]; simpl; lia.
  - intros [|[|[|[|i]]]] [|[|[|[|j]]]]; simpl; lia.
Qed.

(** C10 *)
Theorem C10_compute_phi : forall n sa, 0 < n -> is_perm n sa ->
  exists phi, compute_phi sa = Ok phi /\ is_perm n phi /\
    (forall i, 0 < i < n -> nth (nth i sa 0) phi 0 = nth (i - 1) sa 0) /\
    nth (nth 0 sa 0) phi 0 = nth (n - 1) sa 0.
Proof. exact compute_phi_ok. Qed.
Print Assumptions C10_compute_phi.
Theorem C10_compute_phi_empty : compute_phi [] = Panic.
Proof. exact compute_phi_empty. Qed.
Print Assumptions C10_compute_phi_empty.
Example C10_case : compute_phi [4;3;1;2;0] = Ok [2;3;1;4;0].
Proof. reflexivity. Qed.

(** C11 *)
Theorem C11_plcp_lcp : forall (t : str) sa, t <> [] -> is_suffix_array t sa ->
  exists phi plcp lcp, compute_phi sa = Ok phi /\ compute_plcp t phi = Ok plcp /\
    compute_lcp plcp sa = Ok lcp /\
    length plcp = length t /\ length lcp = length t /\
    (forall i, i < length t -> is_lcp (skipn (nth i phi 0) t) (skipn i t) (nth i plcp 0)) /\
    (forall i, 0 < i < length t -> is_lcp (skipn (nth (i - 1) sa 0) t) (skipn (nth i sa 0) t) (nth i lcp 0)) /\
    is_lcp (skipn (nth (length t - 1) sa 0) t) (skipn (nth 0 sa 0) t) (nth 0 lcp 0).
Proof. exact lcp_structures. Qed.
Print Assumptions C11_plcp_lcp.
Example C11_case : compute_plcp [2;1;2;1;0] [2;3;1;4;0] = Ok [2;1;0;0;0] /\
  compute_lcp [2;1;0;0;0] [4;3;1;2;0] = Ok [0;0;1;0;2] /\ is_suffix_array [2;1;2;1;0] [4;3;1;2;0].
Proof. repeat split; try reflexivity; apply (naive_sort_ok [2;1;2;1;0]). Qed.

(** C12: nearest smaller values; 2^32-1 marks absence *)
Theorem C12_compute_psv : forall arr, arr <> [] -> (N.of_nat (length arr) < 2^32)%N ->
  exists psv, compute_psv arr = Ok psv /\ length psv = length arr /\
    forall i, i < length arr ->
     (nth i psv 0%N = 4294967295%N /\ forall q, q < i -> nth i arr 0 <= nth q arr 0) \/
     (exists p, nth i psv 0%N = N.of_nat p /\ p < i /\ nth p arr 0 < nth i arr 0 /\
        forall q, p < q < i -> nth i arr 0 <= nth q arr 0).
Proof. exact compute_psv_correct. Qed.
Print Assumptions C12_compute_psv.
Theorem C12_compute_nsv : forall arr, arr <> [] -> (N.of_nat (length arr) < 2^32)%N ->
  exists nsv, compute_nsv arr = Ok nsv /\ length nsv = length arr /\
    forall i, i < length arr ->
     (nth i nsv 0%N = 4294967295%N /\ forall q, i < q < length arr -> nth i arr 0 <= nth q arr 0) \/
     (exists p, nth i nsv 0%N = N.of_nat p /\ i < p < length arr /\ nth p arr 0 < nth i arr 0 /\
        forall q, i < q < p -> nth i arr 0 <= nth q arr 0).
Proof. exact compute_nsv_correct. Qed.
Print Assumptions C12_compute_nsv.
Theorem C12_empty_panics : compute_psv [] = Panic /\ compute_nsv [] = Panic.
Proof. split; reflexivity. Qed.
Print Assumptions C12_empty_panics.
Example C12_case : compute_psv [3;1;2;2;0] = Ok [4294967295;4294967295;1;1;4294967295]%N /\
  compute_nsv [3;1;2;2;0] = Ok [1;4;4;4;4294967295]%N.
Proof. split; reflexivity. Qed.
