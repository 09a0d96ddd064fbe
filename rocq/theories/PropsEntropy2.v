(** PropsEntropy2.v : property theorems C71, C72. Floating point numbers are read as real numbers. [sort] stands for
    cdivsufsort; [naive_sort] is an instance. *)
From Verif Require Import Base SpecStr SpecIo SpecMain SpecEntropy LexFacts PermFacts SortFacts.
From Verif Require Import ModelIo ModelCore ModelEntropy EntropyProof EntropyProof2 EntropyProof3 EntropyProof4 EntropyProof5 MainProof2 PropsEntropy.
From Coq Require Import NArith Reals Lra.

(** C71: a text that repeats a word of pairwise different letters *)
Lemma periodic_text u s : u <> [] -> bytes u -> ~ In 0 u -> (forall i, i < length s -> nth i s 0 = nth (i mod length u) u 0) ->
  bytes s /\ ~ In 0 s.
Proof.
  intros Hne HB Hz HP. assert (Hp : 0 < length u) by (destruct u; [easy|simpl; lia]).
  assert (I : forall a, In a s -> In a u).
  { intros a Ha. apply (In_nth _ _ 0) in Ha. destruct Ha as (i & Hi & <-). rewrite HP by exact Hi. apply nth_In, Nat.mod_upper_bound. lia. }
  split; [|intros H; apply Hz, I, H]. apply Forall_forall. intros a Ha. apply I in Ha. revert a Ha. now apply Forall_forall.
Qed.
Theorem C71_periodic_entropy : forall sort it1 it2 u s k, (forall t, is_suffix_array t (sort t)) ->
  (forall m, Permutation (it1 m) m) -> (forall m, Permutation (it2 m) m) ->
  NoDup u -> u <> [] -> bytes u -> ~ In 0 u -> (forall i, i < length s -> nth i s 0 = nth (i mod length u) u 0) ->
  1 <= k -> k + length u <= length s ->
  let f := INR ((length s - k) / length u) in let n := INR (length s + 1) in
  kth_order_entropy sort (s ++ [0]) k = Ok (Some ((f * lg ((f + 1) / f) + lg (f + 1)) / n)%R) /\
  (k <= 7 -> entropy_via_kmer_counting it1 it2 (s ++ [0]) k = Ok (Some ((f * lg ((f + 1) / f) + lg (f + 1)) / n)%R, length s + 1)).
Proof.
  intros sort it1 it2 u s k Hs P1 P2 ND Hne HB Hz HP Hk1 Hkl f n.
  destruct (periodic_text u s Hne HB Hz HP) as (HBs & Hzs).
  assert (Hse : s <> []) by (intros ->; destruct u; [easy|simpl in Hkl; lia]).
  assert (E : kth_order_entropy sort (s ++ [0]) k = Ok (Some ((f * lg ((f + 1) / f) + lg (f + 1)) / n)%R)).
  { destruct (contexts_ex (s ++ [0]) k) as (W & HW). rewrite (C56_kth_order_entropy sort s k W) by auto.
    rewrite (pp_sum u s k ND Hne Hz HP Hk1 Hkl W HW). reflexivity. }
  split; [exact E|]. intros Hk7. destruct (C57_same_entropy sort it1 it2 s k) as (x & E1 & E2); auto; [rewrite app_length; lia|].
  rewrite E in E1. injection E1 as <-. rewrite E2, app_length. reflexivity.
Qed.
Print Assumptions C71_periodic_entropy.
(** the unary text of n bytes with terminator, as in the unit test *)
Theorem C71_unary : forall sort a n k, (forall t, is_suffix_array t (sort t)) -> 0 < a < 256 -> 1 <= k -> k + 2 <= n ->
  kth_order_entropy sort (repeat a (n - 1) ++ [0]) k =
  Ok (Some ((INR (n - 1 - k) * lg (INR (n - k) / INR (n - 1 - k)) + lg (INR (n - k))) / INR n)%R).
Proof.
  intros sort a n k Hs Ha Hk Hn.
  destruct (C71_periodic_entropy sort (fun m => m) (fun m => m) [a] (repeat a (n - 1)) k Hs) as (E & _); auto.
  - repeat constructor; auto.
  - discriminate.
  - constructor; [cbv beta; lia|constructor].
  - simpl. intuition lia.
  - intros i Hi. rewrite repeat_length in Hi. rewrite Nat.mod_1_r. simpl. rewrite (nth_indep _ 0 a) by (rewrite repeat_length; exact Hi); apply nth_repeat.
  - rewrite repeat_length. simpl. lia.
  - rewrite E, repeat_length. cbn [length]. rewrite Nat.div_1_r.
    replace (INR (n - k)) with (INR (n - 1 - k) + 1)%R by (rewrite <- S_INR; f_equal; lia). replace (n - 1 + 1) with n by lia. reflexivity.
Qed.
Print Assumptions C71_unary.
(** the text (ab)^m with terminator, as in the unit test; (k+1)/2 is k/2 rounded up *)
Lemma nth_power_two a b : forall m i, i < 2 * m -> nth i (power [a; b] m) 0 = nth (i mod 2) [a; b] 0.
Proof.
  induction m as [|m IH]; intros i Hi; [lia|]. destruct i as [|[|i]]; [reflexivity|reflexivity|]. cbn [power app nth]. rewrite IH by lia.
  f_equal. replace (S (S i)) with (i + 1 * 2) by lia. now rewrite Nat.mod_add.
Qed.
Theorem C71_alternating : forall sort a b m k, (forall t, is_suffix_array t (sort t)) -> 0 < a < 256 -> 0 < b < 256 -> a <> b ->
  1 <= k -> k + 2 <= 2 * m -> let freq := INR (m - (k + 1) / 2) in
  kth_order_entropy sort (power [a; b] m ++ [0]) k =
  Ok (Some ((freq * lg ((freq + 1) / freq) + lg (freq + 1)) / INR (2 * m + 1))%R).
Proof.
  intros sort a b m k Hs Ha Hb N Hk Hn freq.
  assert (L : length (power [a; b] m) = 2 * m) by (rewrite length_power; simpl; lia).
  destruct (C71_periodic_entropy sort (fun m => m) (fun m => m) [a; b] (power [a; b] m) k Hs) as (E & _); auto.
  - constructor; [simpl; intuition|repeat constructor; auto].
  - discriminate.
  - constructor; [cbv beta; lia|constructor; [cbv beta; lia|constructor]].
  - simpl. intuition lia.
  - intros i Hi. rewrite L in Hi. now apply nth_power_two.
  - rewrite L. simpl. lia.
  - rewrite E, L. cbn [length]. unfold freq.
    replace ((2 * m - k) / 2) with (m - (k + 1) / 2); [reflexivity|].
    pose proof (Nat.div_mod (k + 1) 2 ltac:(lia)) as D. pose proof (Nat.mod_upper_bound (k + 1) 2 ltac:(lia)) as B.
    apply (Nat.div_unique _ 2 _ (1 - (k + 1) mod 2)); lia.
Qed.
Print Assumptions C71_alternating.
(** order 0: 0 for unary texts; only the relative frequencies of the letters count *)
Theorem C71_zero_order : forall v v' a m, bytes v -> v <> [] -> a < 256 -> 1 <= m ->
  zero_order_entropy (repeat a m) = Ok (Some 0%R) /\
  zero_order_entropy (power v m) = zero_order_entropy v /\
  (Permutation v v' -> zero_order_entropy v' = zero_order_entropy v).
Proof.
  intros v v' a m HB Hne Ha Hm. split; [|split].
  - rewrite zero_order_ok; [now rewrite H0_const| |destruct m; [lia|discriminate]]. apply Forall_forall. intros x Hx. apply repeat_spec in Hx. now subst.
  - rewrite (zero_order_ok v), (zero_order_ok (power v m)); auto.
    + rewrite H0_power by lia. reflexivity.
    + clear Hm Hne. induction m as [|m IH]; [constructor|]. cbn [power]. apply Forall_app. split; assumption.
    + destruct m; [lia|]. cbn [power]. destruct v; [easy|discriminate].
  - intros HP. rewrite (zero_order_ok v), (zero_order_ok v'); auto.
    + now rewrite (H0_perm _ _ HP).
    + eapply Permutation_Forall; eauto.
    + intros ->. apply Permutation_sym, Permutation_nil in HP. contradiction.
Qed.
Print Assumptions C71_zero_order.
(** abab0, order 1: b is followed by a and 0, one bit each: 2 bits for 5 bytes *)
Example C71_case : kth_order_entropy naive_sort [97;98;97;98;0] 1 = Ok (Some (2 / 5)%R).
Proof.
  pose proof (C71_alternating naive_sort 97 98 2 1 naive_sort_ok) as E. cbv zeta in E. change (power [97; 98] 2 ++ [0]) with [97;98;97;98;0] in E.
  rewrite E by lia. replace (2 - (1 + 1) / 2) with 1 by reflexivity. simpl (INR _). replace ((1 + 1) / 1)%R with 2%R by lra. replace (1 + 1)%R with 2%R by lra. rewrite lg_2. do 2 f_equal. lra.
Qed.

(** C72: the entropies that the program prints lie between 0 and the logarithm of the alphabet size and do not grow with
    the order *)
Theorem C72_entropy_bounds : forall sort content p j k, (forall t, is_suffix_array t (sort t)) ->
  let s := prefix_read content p in bytes s -> s <> [] -> ~ In 0 s -> j <= k ->
  exists x y, entropy_main sort true content p j = Ok (Some x) /\ entropy_main sort true content p k = Ok (Some y) /\
    (0 <= y <= x)%R /\ (x <= lg (INR (length (nodup Nat.eq_dec (s ++ [0%nat])))))%R.
Proof.
  intros sort content p j k Hs s HB Hne Hz Hjk. set (t := s ++ [0]). assert (Ht : t <> []) by (unfold t; destruct s; discriminate).
  assert (G : forall o W, contexts t o W -> entropy_main sort true content p o = Ok (Some (Hk t W))).
  { intros o W HW. destruct (C56_program sort content p o W Hs HB) as (E0 & Eo). fold s t in E0, Eo. destruct (Nat.eq_dec o 0) as [->|N].
    - rewrite E0. now rewrite (Hk_zero t W Ht HW).
    - apply Eo; auto. lia. }
  destruct (contexts_ex t j) as (W & HW). destruct (contexts_ex t k) as (W' & HW'). destruct (contexts_ex t 0) as (V & HV).
  exists (Hk t W), (Hk t W'). split; [now apply G|]. split; [now apply G|]. split; [split; [now apply Hk_nonneg|]|].
  - apply (Hk_mono t j W Ht HW (k - j)). replace (j + (k - j)) with k by lia. exact HW'.
  - eapply Rle_trans; [apply (Hk_mono t 0 V Ht HV j W HW)|]. rewrite (Hk_zero t V Ht HV). now apply H0_le_sigma.
Qed.
Print Assumptions C72_entropy_bounds.
(** the zero-order entropy of any non-empty byte sequence is between 0 and 8 bits *)
Theorem C72_zero_order_bounds : forall v, bytes v -> v <> [] -> exists x, zero_order_entropy v = Ok (Some x) /\ (0 <= x <= 8)%R.
Proof.
  intros v HB Hne. exists (H0 v). split; [now apply zero_order_ok|].
  assert (Hn : (0 < INR (length v))%R) by (apply lt_0_INR; destruct v; [easy|simpl; lia]). split.
  - pose proof (nH_nonneg v) as P. unfold nH in P. apply Rmult_le_reg_l with (INR (length v)); [exact Hn|]. rewrite Rmult_0_r. exact P.
  - eapply Rle_trans; [now apply H0_le_sigma|].
    assert (LB : 1 <= length (nodup Nat.eq_dec v) <= 256).
    { split.
      - destruct v as [|a v]; [easy|]. destruct (nodup Nat.eq_dec (a :: v)) eqn:E; [|simpl; lia]. exfalso. apply (in_nil (a := a)). rewrite <- E. apply nodup_In. now left.
      - rewrite <- (seq_length 256 0). apply NoDup_incl_length; [apply NoDup_nodup|]. intros c Hc. apply nodup_In in Hc. apply in_seq.
        unfold bytes in HB. rewrite Forall_forall in HB. specialize (HB c Hc). lia. }
    replace 8%R with (lg (2 ^ 8)).
    + unfold lg. apply Rmult_le_compat_r; [apply Rlt_le, Rinv_0_lt_compat, ln2_pos|].
      assert (B : (INR (length (nodup Nat.eq_dec v)) <= 2 ^ 8)%R) by (replace (2 ^ 8)%R with (INR 256) by (simpl; lra); apply le_INR; lia).
      destruct (Rle_lt_or_eq_dec _ _ B) as [C|C]; [|rewrite C; lra]. apply Rlt_le, ln_increasing; [apply lt_0_INR; lia|exact C].
    + unfold lg. rewrite ln_pow by lra. replace (INR 8) with 8%R by (simpl; lra). pose proof ln2_pos. field. lra.
Qed.
Print Assumptions C72_zero_order_bounds.
(** concrete: order 0 and 1 of aab *)
Example C72_case : exists x y, entropy_main naive_sort true (ascii "aab") 0 0 = Ok (Some x) /\
  entropy_main naive_sort true (ascii "aab") 0 1 = Ok (Some y) /\ (0 <= y <= x)%R /\ y = (1 / 2)%R.
Proof.
  destruct (C72_entropy_bounds naive_sort (ascii "aab") 0 0 1 naive_sort_ok) as (x & y & E1 & E2 & H1 & _).
  - repeat constructor.
  - discriminate.
  - simpl. intuition discriminate.
  - lia.
  - exists x, y. repeat (split; [assumption|]).
    assert (EE : entropy_main naive_sort true (ascii "aab") 0 1 = kth_order_entropy naive_sort (ascii "aab" ++ [0]) 1) by reflexivity.
    rewrite EE, C56_case in E2. now injection E2 as <-.
Qed.
