(** PropsFib.v : property theorem C90, C91: the Burrows-Wheeler transforms of Fibonacci words. *)
From Verif Require Import Base SpecStr SpecBwt SpecIo SpecWord RunFacts BwtFacts BwtProof ModelCore ModelWord ModelMain MainProof2.
From Verif Require Import LexFacts LyndonProof DuvalProof BorderProof WordProof FibFacts FibBwt FibBwt2 PermFacts PropsWord PropsClassic SortFacts.
From Coq Require Import NArith.

(** C90 *)
Theorem C90_fibonacci_bwt : forall sort k, (forall t, is_suffix_array t (sort t)) -> 2 <= k <= 74 \/ k = 76 ->
  exists w n1 n2, fibonacci_word k = Ok w /\ fibonacci_number (k - 1) = Ok n1 /\ fibonacci_number (k - 2) = Ok n2 /\
    (forall s, s <= length w ->
       bwt_by_matrix_naive (rot s w) = Ok (repeat 98 (N.to_nat n2) ++ repeat 97 (N.to_nat n1)) /\
       bwt_by_matrix sort (rot s w) = Ok (repeat 98 (N.to_nat n2) ++ repeat 97 (N.to_nat n1))) /\
    bwt_main sort true w 0 true true = Ok (repeat 98 (N.to_nat n2) ++ repeat 97 (N.to_nat n1)) /\
    count_r_main sort true w 0 true true = Ok (length w, 2).
Proof.
  intros sort k Hs Hk. exists (F k), (N.of_nat (f (k - 1))), (N.of_nat (f (k - 2))).
  destruct (C42_exact k) as (E & _). specialize (E ltac:(lia)). split; [exact E|].
  split; [apply fib_number_len; lia|]. split; [apply fib_number_len; lia|]. rewrite !Nat2N.id.
  replace k with (S (S (k - 2))) by lia. remember (k - 2) as m eqn:Em. clear Em k Hk E.
  replace (S (S m) - 1) with (S m) by lia. replace (S (S m) - 2) with m by lia.
  pose proof (fib_bwt m) as HB. apply bwt_by_matrix_naive_spec in HB.
  pose proof (f_SS m) as L2. pose proof (f_pos m) as L0. pose proof (f_pos (S m)) as L1.
  assert (NE : F (S (S m)) <> []) by (intros EE; unfold f in L2; rewrite EE in L2; simpl in L2; unfold f in L0; lia).
  assert (N0 : ~ In 0 (F (S (S m)))).
  { intros H. pose proof (F_letters (S (S m))) as A. rewrite Forall_forall in A. specialize (A _ H). lia. }
  assert (R : forall s, s <= length (F (S (S m))) ->
     bwt_by_matrix_naive (rot s (F (S (S m)))) = Ok (repeat 98 (f m) ++ repeat 97 (f (S m))) /\
     bwt_by_matrix sort (rot s (F (S (S m)))) = Ok (repeat 98 (f m) ++ repeat 97 (f (S m)))).
  { intros s Hle. split; [rewrite bwt_by_matrix_naive_rot; auto|].
    rewrite bwt_by_matrix_ok; [rewrite bwt_by_matrix_naive_rot; auto|exact Hs| |].
    - intros EE. apply NE. apply length_zero_iff_nil. rewrite <- (rot_length s). now rewrite EE.
    - intros H. apply in_rot in H; auto. }
  split; [exact R|]. destruct (R 0 ltac:(lia)) as (R1 & R2). rewrite rot_0 in R1, R2.
  assert (B : bwt_main sort true (F (S (S m))) 0 true true = Ok (repeat 98 (f m) ++ repeat 97 (f (S m)))).
  { unfold bwt_main. rewrite prefix_read_ok. cbn [bind]. unfold SpecMain.prefix_read. cbn [Nat.eqb].
    destruct (length (F (S (S m))) <? 100); assumption. }
  split; [exact B|]. rewrite (count_r_ok _ _ _ _ _ _ _ B). do 2 f_equal.
  - rewrite app_length, !repeat_length. fold (f (S (S m))). lia.
  - rewrite (is_runs_unique (repeat 98 (f m) ++ repeat 97 (f (S m))) (runs (repeat 98 (f m) ++ repeat 97 (f (S m)))) [(98, f m); (97, f (S m))]); [reflexivity|apply runs_ok|].
    apply is_runs_cons; [exact L0| |].
    + intros d l' rs' EE. injection EE as <- _ _. discriminate.
    + rewrite <- (app_nil_r (repeat 97 _)). apply is_runs_cons; [exact L1|discriminate|apply runs_ok].
Qed.
Print Assumptions C90_fibonacci_bwt.
(** k = 0 and k = 1 *)
Theorem C90_small : fibonacci_word 0 = Ok [97] /\ bwt_by_matrix_naive [97] = Ok [97] /\
  fibonacci_word 1 = Ok [97; 98] /\ bwt_by_matrix_naive [97; 98] = Ok [98; 97].
Proof. vm_compute. auto. Qed.
Print Assumptions C90_small.
Example C90_case : fibonacci_word 5 = Ok [97;98;97;97;98;97;98;97;97;98;97;97;98] /\ count_r_main naive_sort true [97;98;97;97;98;97;98;97;97;98;97;97;98] 0 true true = Ok (13, 2) /\ bwt_by_matrix_naive [97;98;97;97;98;97;98;97;97;98;97;97;98] = Ok [98;98;98;98;98;97;97;97;97;97;97;97;97].
Proof. vm_compute. auto. Qed.

(** C91: the suffix array variants, src/tests/core_test.rs:33-42 *)
Lemma fib_ne k : F k <> [].
Proof. intros E. pose proof (f_pos k) as H. unfold f in H. rewrite E in H. simpl in H. lia. Qed.
Lemma fib_bwt_sa sort k : (forall t, is_suffix_array t (sort t)) ->
  bwt_main sort true (F k) 0 false true = Ok (sa_letters (F k) (sort (F k))) /\
  bwt_main sort true (F k) 0 false false = Ok (sa_letters (F k ++ [0]) (length (F k) :: sort (F k))).
Proof.
  intros Hs. unfold bwt_main. rewrite prefix_read_ok. unfold SpecMain.prefix_read. cbn [bind Nat.eqb]. split.
  - apply bwt_from_text_by_sa_ok; [apply fib_ne|apply Hs|]. intros H. apply (F_no0 k). rewrite <- (firstn_skipn (length (F k) - 1) (F k)). apply in_or_app. now left.
  - rewrite bwt_from_text_by_sa_ok; [|destruct (F k); easy|apply Hs|].
    + do 2 f_equal. apply (suffix_array_unique (F k ++ [0])); [apply Hs|]. apply sa_dollar; [apply F_no0|apply Hs].
    + rewrite app_length. cbn [length]. replace (length (F k) + 1 - 1) with (length (F k)) by lia. rewrite firstn_app, firstn_all, Nat.sub_diag, app_nil_r. apply F_no0.
Qed.
Theorem C91_fibonacci_even : forall sort k, (forall t, is_suffix_array t (sort t)) -> 2 <= k <= 74 \/ k = 76 -> Nat.even k = true ->
  exists w n1 n2, fibonacci_word k = Ok w /\ fibonacci_number (k - 1) = Ok n1 /\ fibonacci_number (k - 2) = Ok n2 /\
    bwt_from_text_by_sa sort w = Ok (repeat 98 (N.to_nat n2) ++ repeat 97 (N.to_nat n1)) /\
    count_r_main sort true w 0 false true = Ok (length w, 2) /\
    bwt_from_text_by_sa sort (w ++ [0]) = Ok (97 :: repeat 98 (N.to_nat n2) ++ 0 :: repeat 97 (N.to_nat n1 - 1)) /\
    count_r_main sort true w 0 false false = Ok (S (length w), 4).
Proof.
  intros sort k Hs Hk He. exists (F k), (N.of_nat (f (k - 1))), (N.of_nat (f (k - 2))).
  destruct (C42_exact k) as (E & _). specialize (E ltac:(lia)). split; [exact E|].
  split; [apply fib_number_len; lia|]. split; [apply fib_number_len; lia|]. rewrite !Nat2N.id.
  apply Nat.even_spec in He. destruct He as (h & Eh). assert (Em : k = 2 * (h - 1) + 2) by lia. remember (h - 1) as m eqn:Hm. clear Hm h Eh.
  subst k. clear Hk E. replace (2 * m + 2 - 1) with (S (2 * m)) by lia. replace (2 * m + 2 - 2) with (2 * m) by lia.
  destruct (fib_bwt_sa sort (2 * m + 2) Hs) as (B1 & B2). destruct (fib_even_sa _ m (Hs (F (2 * m + 2)))) as (S1 & S2).
  rewrite S1 in B1. change (length (F (2 * m + 2))) with (f (2 * m + 2)) in B2. rewrite S2 in B2.
  pose proof (f_pos (2 * m)) as L0. pose proof (f_S (2 * m)) as L1. pose proof (f_SS (2 * m)) as L2. replace (S (S (2 * m))) with (2 * m + 2) in L2 by lia.
  split; [|split; [|split]].
  - unfold bwt_main in B1. rewrite prefix_read_ok in B1. exact B1.
  - rewrite (count_r_ok _ _ _ _ _ _ _ B1). do 2 f_equal.
    + rewrite app_length, !repeat_length. fold (f (2 * m + 2)). lia.
    + rewrite (is_runs_unique _ _ [(98, f (2 * m)); (97, f (S (2 * m)))] (runs_ok _)); [reflexivity|].
      apply is_runs_cons; [exact L0|intros d l' rs' EE; injection EE as <- _ _; discriminate|].
      rewrite <- (app_nil_r (repeat 97 _)). apply is_runs_cons; [lia|discriminate|apply runs_ok].
  - unfold bwt_main in B2. rewrite prefix_read_ok in B2. exact B2.
  - rewrite (count_r_ok _ _ _ _ _ _ _ B2). do 2 f_equal.
    + cbn [length]. rewrite app_length. cbn [length]. rewrite !repeat_length. fold (f (2 * m + 2)). lia.
    + rewrite (is_runs_unique _ _ [(97, 1); (98, f (2 * m)); (0, 1); (97, f (S (2 * m)) - 1)] (runs_ok _)); [reflexivity|].
      apply (is_runs_cons 97 1); [lia|intros d l' rs' EE; injection EE as <- _ _; discriminate|].
      apply is_runs_cons; [lia|intros d l' rs' EE; injection EE as <- _ _; discriminate|].
      apply (is_runs_cons 0 1); [lia|intros d l' rs' EE; injection EE as <- _ _; discriminate|].
      rewrite <- (app_nil_r (repeat 97 _)). apply is_runs_cons; [lia|discriminate|apply runs_ok].
Qed.
Print Assumptions C91_fibonacci_even.
Theorem C91_fibonacci_odd : forall sort k, (forall t, is_suffix_array t (sort t)) -> 3 <= k <= 74 -> Nat.odd k = true ->
  exists w b r, fibonacci_word k = Ok w /\ bwt_from_text_by_sa sort w = Ok b /\
    count_r_main sort true w 0 false true = Ok (length w, r) /\ 3 <= r.
Proof.
  intros sort k Hs Hk Ho. destruct (C42_exact k) as (E & _). specialize (E ltac:(lia)).
  apply Nat.odd_spec in Ho. destruct Ho as (h & Eh). assert (Em : k = 2 * (h - 1) + 3) by lia. remember (h - 1) as m eqn:Hm. clear Hm h Eh.
  destruct (fib_bwt_sa sort k Hs) as (B1 & _). exists (F k), (sa_letters (F k) (sort (F k))), (length (runs (sa_letters (F k) (sort (F k))))).
  split; [exact E|]. split; [unfold bwt_main in B1; rewrite prefix_read_ok in B1; exact B1|]. split.
  - rewrite (count_r_ok _ _ _ _ _ _ _ B1). do 2 f_equal. unfold sa_letters. rewrite map_length. apply is_perm_length, Hs.
  - subst k. apply (fib_odd_sa (sort (F (2 * m + 3))) m); [apply Hs|apply runs_ok].
Qed.
Print Assumptions C91_fibonacci_odd.
(** "only for even": index 1 is a further exception *)
Theorem C91_only_even_refuted : fibonacci_word 1 = Ok [97; 98] /\ bwt_from_text_by_sa naive_sort [97; 98] = Ok [98; 97] /\
  count_r_main naive_sort true [97; 98] 0 false true = Ok (2, 2).
Proof. vm_compute. auto. Qed.
Print Assumptions C91_only_even_refuted.
Example C91_case : fibonacci_word 4 = Ok [97;98;97;97;98;97;98;97] /\
  bwt_from_text_by_sa naive_sort [97;98;97;97;98;97;98;97] = Ok [98;98;98;97;97;97;97;97] /\
  bwt_from_text_by_sa naive_sort [97;98;97;97;98;97;98;97;0] = Ok [97;98;98;98;0;97;97;97;97] /\
  count_r_main naive_sort true [97;98;97;97;98] 0 false true = Ok (5, 4).
Proof. vm_compute. auto. Qed.
