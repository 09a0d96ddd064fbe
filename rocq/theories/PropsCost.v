(** PropsCost.v : property theorems C101, the number of loop iterations (ModelCost.v) of the functions that are meant to be
    fast. *)
From Verif Require Import Base SpecStr SpecCost ModelCore ModelLz ModelAttr ModelCost SortFacts.
From Verif Require Import CostFacts CostProof CostProof2 CostProof3.
From Coq Require Import NArith.

Lemma within_intro {A} (rc : cres A) r b : erase rc = r -> pc rc (fun _ c => c <= b) -> within rc r b.
Proof.
  intros <- H. split; [|split; [|exact H]].
  - intros a. split; [apply erase_ok|]. intros (c & ->). reflexivity.
  - unfold erase. destruct rc as [[a c]| |]; cbn [bind]; split; intros E; congruence.
Qed.

(** C101: at most this many iterations of loops, on every input *)
Theorem C101_duval : forall t, within (duval_c t) (duval t) (4 * length t + 1).
Proof. intros t. apply within_intro; [apply duval_erase|apply duval_cost]. Qed.
Print Assumptions C101_duval.
Theorem C101_isa_lyndon_factorization : forall isa, within (isa_lyndon_factorization_c isa) (isa_lyndon_factorization isa) (length isa).
Proof. intros isa. apply within_intro; [apply isa_lyndon_erase|apply isa_lyndon_cost]. Qed.
Print Assumptions C101_isa_lyndon_factorization.
Theorem C101_lyndon_conjugate : forall t, within (lyndon_conjugate_c t) (lyndon_conjugate t) (12 * length t + 1).
Proof. intros t. apply within_intro; [apply lyndon_conjugate_erase|apply lyndon_conjugate_cost]. Qed.
Print Assumptions C101_lyndon_conjugate.
Theorem C101_border_array : forall t, within (border_array_c t) (border_array t) (4 * length t).
Proof. intros t. apply within_intro; [apply border_array_erase|apply border_array_cost]. Qed.
Print Assumptions C101_border_array.
Theorem C101_is_primitive : forall t, within (is_primitive_c t) (is_primitive t) (4 * length t).
Proof. intros t. apply within_intro; [apply is_primitive_erase|apply is_primitive_cost]. Qed.
Print Assumptions C101_is_primitive.
(** any table, any phi: no property of suffix arrays is needed *)
Theorem C101_compute_psv : forall arr, (N.of_nat (length arr) < 2^32)%N -> within (compute_psv_c arr) (compute_psv arr) (4 * length arr).
Proof. intros arr H. apply within_intro; [apply compute_psv_erase|now apply compute_psv_cost]. Qed.
Print Assumptions C101_compute_psv.
Theorem C101_compute_nsv : forall arr, (N.of_nat (length arr) < 2^32)%N -> within (compute_nsv_c arr) (compute_nsv arr) (4 * length arr).
Proof. intros arr H. apply within_intro; [apply compute_nsv_erase|now apply compute_nsv_cost]. Qed.
Print Assumptions C101_compute_nsv.
Theorem C101_compute_phi : forall sa, within (compute_phi_c sa) (compute_phi sa) (2 * length sa).
Proof. intros sa. apply within_intro; [apply compute_phi_erase|]. eapply pc_imp; [apply compute_phi_cost|]. intros r c H. apply H. Qed.
Print Assumptions C101_compute_phi.
Theorem C101_inverse_permutation : forall arr, within (inverse_permutation_c arr) (inverse_permutation arr) (2 * length arr).
Proof. intros a. apply within_intro; [apply inverse_permutation_erase|]. eapply pc_imp; [apply inverse_permutation_cost|]. intros r c ->. lia. Qed.
Print Assumptions C101_inverse_permutation.
Theorem C101_compute_plcp : forall t phi, within (compute_plcp_c t phi) (compute_plcp t phi) (5 * length t).
Proof. intros t phi. apply within_intro; [apply compute_plcp_erase|]. eapply pc_imp; [apply compute_plcp_cost|]. intros r c H. apply H. Qed.
Print Assumptions C101_compute_plcp.
Theorem C101_compute_lcp : forall plcp sa, within (compute_lcp_c plcp sa) (compute_lcp plcp sa) (2 * length plcp).
Proof. intros p sa. apply within_intro; [apply compute_lcp_erase|]. eapply pc_imp; [apply compute_lcp_cost|]. intros r c ->. lia. Qed.
Print Assumptions C101_compute_lcp.
Theorem C101_lcp_intervals : forall t sa lcp, within (lcp_intervals_c t sa lcp) (lcp_intervals t sa lcp) (9 * length t + 4).
Proof. intros t sa lcp. apply within_intro; [apply lcp_intervals_erase|]. eapply pc_imp; [apply lcp_intervals_cost|]. intros r c H. apply H. Qed.
Print Assumptions C101_lcp_intervals.
(** the word generator: each of its calls *)
Theorem C101_lyndon_words : forall len sigma (g : nat -> lwg) k, g 0 = lwg_new len sigma ->
  (forall i, i < k -> exists o, lwg_next (g i) = Ok (o, g (S i))) -> within (lwg_next_c (g k)) (lwg_next (g k)) (2 * len + 2).
Proof.
  intros len sigma g k H0 Hs.
  assert (H : length (lwg_stack (g k)) <= lwg_length (g k) <= len).
  { induction k as [|k IH]; [rewrite H0; cbn [lwg_new lwg_stack lwg_length length]; lia|].
    specialize (IH (fun i Hi => Hs i (Nat.lt_lt_succ_r _ _ Hi))). destruct (Hs k (Nat.lt_succ_diag_r k)) as [o E].
    rewrite <- lwg_next_erase in E. apply erase_ok in E. destruct E as [c E]. destruct (lwg_next_cost (g k) (proj1 IH) _ _ E) as (_ & H).
    cbn [snd] in H. lia. }
  apply within_intro; [apply lwg_next_erase|]. eapply pc_imp; [apply lwg_next_cost; apply H|]. intros r c (Hc & _). lia.
Qed.
Print Assumptions C101_lyndon_words.
(** the programs, without suffix sorting (and, in count_z, without the range minimum queries) *)
Theorem C101_count_lexparse : forall sort t, length (sort t) = length t ->
  within (count_lexparse_main_c sort t) (count_lexparse_main sort t) (8 * length t + 1).
Proof. intros sort t H. apply within_intro; [apply count_lexparse_erase|now apply count_lexparse_cost]. Qed.
Print Assumptions C101_count_lexparse.
Theorem C101_count_z : forall sort t, length (sort t) = length t -> (N.of_nat (length t) < 2^32)%N ->
  within (count_z_main_c sort t) (count_z_main sort t) (24 * length t + 1).
Proof. intros sort t H Hn. apply within_intro; [apply count_z_erase|now apply count_z_cost]. Qed.
Print Assumptions C101_count_z.
Theorem C101_mus : forall sort t, length (sort t) = length t -> within (mus_main_c sort t) (mus_main sort t) (12 * length t).
Proof. intros sort t H. apply within_intro; [apply mus_erase|now apply mus_cost]. Qed.
Print Assumptions C101_mus.

Example C101_case :
  duval_c [1;2;1;1;2;1;1;1;3] = Ok ([1;4;8], 19) /\ border_array_c [1;1;1;2;1;1;1;1] = Ok ([0;0;1;2;0;1;2;3;3], 28) /\
  compute_psv_c [3;2;1;0;5;4] = Ok ([4294967295;4294967295;4294967295;4294967295;3;3]%N, 20) /\
  option_map snd (match count_z_main_c naive_sort [1;2;1;2;1;3] with Ok r => Some r | _ => None end) = Some 113.
Proof. vm_compute. repeat split. Qed.
