(** PropsBwt.v : property theorems C13-C19. Statements use SpecStr.v / SpecBwt.v and ModelCore.v.
    [sort] stands for the C library divsufsort: any function returning suffix arrays
    ([naive_sort], proved correct in SortFacts.v, is one). *)
From Verif Require Import Base SpecStr SpecBwt LexFacts ModelCore PermFacts SortFacts LyndonProof BwtFacts BwtProof BbwtProof BbwtSurj.

(** C13 *)
Theorem C13_bwt_from_text_by_sa : forall (sort : str -> list nat) (t : str),
  (forall u, is_suffix_array u (sort u)) -> t <> [] -> ~ In 0 (firstn (length t - 1) t) ->
  exists b, bwt_from_text_by_sa sort t = Ok b /\ length b = length t /\ Permutation b t /\
    (forall i, i < length t -> nth i b 0 = cyclic_prev t (nth i (sort t) 0)) /\
    bwt_from_sa t (sort t) = Ok b.
Proof.
  intros sort t Hs Hne Hz. pose proof (proj1 (Hs t)) as HP. pose proof (is_perm_length _ _ HP) as HL.
  exists (sa_letters t (sort t)).
  split; [now apply bwt_from_text_by_sa_ok|].
  split; [unfold sa_letters; now rewrite map_length|].
  split; [now apply sa_letters_perm|].
  split; [|now apply bwt_from_sa_ok].
  intros i Hi. unfold sa_letters. rewrite (nth_map _ _ i 0) by lia. apply cyclic_prev_last.
  apply (is_perm_nth (length t)); auto.
Qed.
Print Assumptions C13_bwt_from_text_by_sa.
Theorem C13_panics : forall (sort : str -> list nat) (t : str),
  t = [] \/ In 0 (firstn (length t - 1) t) -> bwt_from_text_by_sa sort t = Panic.
Proof. intros sort t H. apply bwt_from_text_by_sa_panic. tauto. Qed.
Print Assumptions C13_panics.
(** bwt_from_sa needs no condition on the zero bytes *)
Theorem C13_bwt_from_sa : forall (t : str) sa, t <> [] -> is_suffix_array t sa ->
  exists b, bwt_from_sa t sa = Ok b /\ Permutation b t /\
    forall i, i < length t -> nth i b 0 = cyclic_prev t (nth i sa 0).
Proof.
  intros t sa Hne [HP _]. pose proof (is_perm_length _ _ HP) as HL. exists (sa_letters t sa).
  split; [now apply bwt_from_sa_ok|]. split; [now apply sa_letters_perm|].
  intros i Hi. unfold sa_letters. rewrite (nth_map _ _ i 0) by lia. apply cyclic_prev_last.
  apply (is_perm_nth (length t)); auto.
Qed.
Print Assumptions C13_bwt_from_sa.
Example C13_case : (forall u, is_suffix_array u (naive_sort u)) /\
  bwt_from_text_by_sa naive_sort [2;1;3;1;3;1;0] = Ok [1;3;3;2;0;1;1].
Proof. split; [apply naive_sort_ok|reflexivity]. Qed.

(** C14 *)
Theorem C14_bwt_by_matrix_naive : forall t b : str,
  bwt_by_matrix_naive t = Ok b <-> is_matrix_bwt t b.
Proof. exact bwt_by_matrix_naive_spec. Qed.
Print Assumptions C14_bwt_by_matrix_naive.
Theorem C14_total : forall t : str, exists b, bwt_by_matrix_naive t = Ok b /\ Permutation b t.
Proof.
  intros t. destruct (bwt_by_matrix_naive_ok t) as (b & E & H). exists b. split; auto.
  now apply matrix_bwt_perm.
Qed.
Print Assumptions C14_total.
Theorem C14_rotation_invariant : forall (t : str) s, s <= length t ->
  bwt_by_matrix_naive (rot s t) = bwt_by_matrix_naive t.
Proof. exact bwt_by_matrix_naive_rot. Qed.
Print Assumptions C14_rotation_invariant.
Example C14_case : bwt_by_matrix_naive [2;1;3;1;3;1] = Ok [3;3;2;1;1;1].
Proof. reflexivity. Qed.

(** C15 *)
Theorem C15_bwt_by_matrix : forall (sort : str -> list nat) (t : str),
  (forall u, is_suffix_array u (sort u)) -> t <> [] -> ~ In 0 t ->
  bwt_by_matrix sort t = bwt_by_matrix_naive t.
Proof. exact bwt_by_matrix_ok. Qed.
Print Assumptions C15_bwt_by_matrix.
Theorem C15_panics : forall (sort : str -> list nat) (t : str),
  t = [] \/ In 0 t -> bwt_by_matrix sort t = Panic.
Proof. exact bwt_by_matrix_panic. Qed.
Print Assumptions C15_panics.
Example C15_case : bwt_by_matrix naive_sort [2;1;3;1;3;1] = Ok [3;3;2;1;1;1] /\
  bwt_by_matrix naive_sort [2;1;2;1] = Ok [2;2;1;1].
Proof. split; reflexivity. Qed.

(** C16 *)
Theorem C16_dollar_agree : forall (sort : str -> list nat) (s : str),
  (forall u, is_suffix_array u (sort u)) -> ~ In 0 s ->
  bwt_from_text_by_sa sort (s ++ [0]) = bwt_by_matrix_naive (s ++ [0]).
Proof. intros sort s H Hz. now apply dollar_agree. Qed.
Print Assumptions C16_dollar_agree.
Example C16_case : ~ In 0 [2;1;2] /\ bwt_from_text_by_sa naive_sort [2;1;2;0] = Ok [2;2;1;0] /\
  bwt_by_matrix_naive [2;1;2;0] = Ok [2;2;1;0].
Proof. split; [simpl; lia|split; reflexivity]. Qed.

(** C17 *)
Theorem C17_matrix_bwt_determines_conjugacy_class : forall x y b : str,
  bwt_by_matrix_naive x = Ok b -> bwt_by_matrix_naive y = Ok b ->
  exists i, i <= length x /\ y = rot i x.
Proof. exact bwt_naive_injective. Qed.
Print Assumptions C17_matrix_bwt_determines_conjugacy_class.
Theorem C17_dollar_bwt_injective : forall (sort : str -> list nat) (s s' b : str),
  (forall u, is_suffix_array u (sort u)) -> ~ In 0 s -> ~ In 0 s' ->
  bwt_from_text_by_sa sort (s ++ [0]) = Ok b -> bwt_from_text_by_sa sort (s' ++ [0]) = Ok b -> s = s'.
Proof. exact dollar_injective. Qed.
Print Assumptions C17_dollar_bwt_injective.
Example C17_case : bwt_by_matrix_naive [2;1;2] = Ok [2;2;1] /\ bwt_by_matrix_naive [1;2;2] = Ok [2;2;1] /\
  rot 1 [2;1;2] = [1;2;2].
Proof. repeat split; reflexivity. Qed.

(** C18 *)
Theorem C18_bbwt_naive : forall t b : str, t <> [] -> (bbwt_naive t = Ok b <-> is_bijective_bwt t b).
Proof. exact bbwt_naive_spec. Qed.
Print Assumptions C18_bbwt_naive.
Theorem C18_bbwt_permutation : forall t : str, t <> [] -> exists b, bbwt_naive t = Ok b /\ Permutation b t.
Proof.
  intros t Hne. destruct (bbwt_naive_ok t Hne) as (b & E & H). exists b. split; auto.
  now apply bijective_bwt_perm.
Qed.
Print Assumptions C18_bbwt_permutation.
Theorem C18_bbwt_injective : forall x y b : str, bbwt_naive x = Ok b -> bbwt_naive y = Ok b -> x = y.
Proof. exact bbwt_naive_injective. Qed.
Print Assumptions C18_bbwt_injective.
Theorem C18_bbwt_surjective : forall b : str, b <> [] -> exists t, bbwt_naive t = Ok b.
Proof. intros b Hb. destruct (bbwt_naive_surjective b Hb) as (t & _ & E). now exists t. Qed.
Print Assumptions C18_bbwt_surjective.
Theorem C18_bbwt_empty_panics : bbwt_naive [] = Panic.
Proof. exact bbwt_naive_empty. Qed.
Print Assumptions C18_bbwt_empty_panics.
Example C18_case : bbwt_naive [2;1;3;1;3;1] = Ok [1;3;3;2;1;1] /\ bbwt_naive [2;1;2;1] = Ok [1;2;1;2].
Proof. split; reflexivity. Qed.

(** C19 *)
Theorem C19_bbwt_eq_bwt_on_lyndon_words : forall w : str, lyndon w ->
  bbwt_naive w = bwt_by_matrix_naive w.
Proof. exact bbwt_lyndon. Qed.
Print Assumptions C19_bbwt_eq_bwt_on_lyndon_words.
Example C19_case : lyndon [1;1;2;1;3] /\ bbwt_naive [1;1;2;1;3] = Ok [3;1;2;1;1] /\
  bbwt_naive [2;1] <> bwt_by_matrix_naive [2;1].
Proof.
  split; [|split; [reflexivity|vm_compute; congruence]].
  apply lyndon_idx. split; [easy|]. intros r Hr. simpl in Hr.
  assert (r = 1 \/ r = 2 \/ r = 3 \/ r = 4) as [->|[->|[->| ->]]] by lia.
  - exists 1. simpl. repeat split; try lia. intros [|[|]]; simpl; lia.
  - exists 0. simpl. repeat split; try lia.
  - exists 1. simpl. repeat split; try lia. intros [|[|]]; simpl; lia.
  - exists 0. simpl. repeat split; try lia.
Qed.
