(** PropsFib2.v : property theorem C105: the exact sizes of the LZ77 parsing, of the lexparse and of the Burrows-Wheeler
    transform (by suffix array) of the Fibonacci words. *)
From Verif Require Import Base SpecStr SpecBwt SpecIo SpecLz SpecAttr SpecWord SpecLex RunFacts BwtFacts BwtProof ModelCore ModelLz ModelWord ModelMain MainProof2.
From Verif Require Import LexFacts BorderProof FibFacts FibBwt FibBwt2 FibLz FibLex FibRuns FibLex2 PermFacts PropsWord PropsClassic PropsFib PropsLz PropsLex SortFacts LzProof LexProof.
From Coq Require Import NArith.

Lemma fib_small k : k <= 45 -> (N.of_nat (length (F k)) < 2^32)%N.
Proof.
  intros H. pose proof (f_le k 45 H) as L. pose proof (fib_number_len 45 ltac:(lia)) as E. fold (f k).
  assert (V : fibonacci_number 45 = Ok 2971215073%N) by (vm_compute; reflexivity). rewrite V in E. clear V H. revert L E. generalize (f 45). intros x L E.
  injection E as E. apply N.le_lt_trans with (N.of_nat x); [lia|]. rewrite <- E. reflexivity.
Qed.
Lemma F_bytes k : Forall (fun x => x < 256) (F k).
Proof. eapply Forall_impl; [|apply F_letters]. cbv beta. intros a Ha. lia. Qed.

(** count_z: k + 1 factors, the copies being the shorter Fibonacci words and a final pair of letters *)
Theorem C105_count_z : forall sort k, (forall t, is_suffix_array t (sort t)) -> k <= 45 ->
  exists w fs, fibonacci_word k = Ok w /\ count_z_main sort w = Ok fs /\ length fs = k + 1 /\
    (3 <= k -> map lz_len fs = [0; 0; 1] ++ map (fun i => length (fib_word i)) (seq 2 (k - 3)) ++ [2]).
Proof.
  intros sort k Hs Hk. destruct (C42_exact k) as (E & _). specialize (E ltac:(lia)).
  destruct (C36_lz77_longest_previous_factors sort (F k) Hs (fib_ne k) (F_bytes k) (fib_small k Hk)) as (fs & EZ & HP & HU).
  exists (F k), fs. split; [exact E|]. split; [exact EZ|].
  destruct (Nat.le_gt_cases 3 k) as [C|C].
  - pose proof (HU _ (fib_lz77 k C)) as HL. cbn [map lz_len] in HL. rewrite fib_factors_lens in HL by lia. split.
    + apply (f_equal (@length nat)) in HL. cbn [length] in HL. rewrite app_length, !map_length, seq_length in HL. cbn [length] in HL. lia.
    + intros _. rewrite <- HL. reflexivity.
  - split; [|lia]. assert (k = 0 \/ k = 1 \/ k = 2) as [-> | [-> | ->]] by lia.
    + assert (G : is_lz77_parsing (F 0) 0 [LZ 97 0]).
      { cbn. split; [lia|]. split; [left; repeat split; intros j Hj; lia|]. reflexivity. }
      apply HU in G. apply (f_equal (@length nat)) in G. rewrite !map_length in G. now rewrite <- G.
    + assert (G : is_lz77_parsing (F 1) 0 [LZ 97 0; LZ 98 0]).
      { cbn. split; [lia|]. split; [left; repeat split; intros j Hj; lia|]. split; [lia|]. split; [|reflexivity].
        left. repeat split. intros j Hj. replace j with 0 by lia. discriminate. }
      apply HU in G. apply (f_equal (@length nat)) in G. rewrite !map_length in G. now rewrite <- G.
    + assert (G : is_lz77_parsing (F 2) 0 [LZ 97 0; LZ 98 0; LZ 2 1]).
      { cbn. split; [lia|]. split; [left; repeat split; intros j Hj; lia|]. split; [lia|]. split.
        - left. repeat split. intros j Hj. replace j with 0 by lia. discriminate.
        - split; [lia|]. split; [|reflexivity]. right. cbn [lz_len lz_pos]. split; [lia|]. split; [lia|]. split.
          + split; [cbn; lia|]. split; [cbn; lia|]. intros x Hx. replace x with 0 by lia. reflexivity.
          + intros j l Hj (_ & A & _). cbn in A. lia. }
      apply HU in G. apply (f_equal (@length nat)) in G. rewrite !map_length in G. now rewrite <- G.
Qed.
Print Assumptions C105_count_z.

(** count_lexparse on the words of even index: four factors *)
Theorem C105_count_lexparse_even : forall sort k, (forall t, is_suffix_array t (sort t)) -> 4 <= k <= 74 \/ k = 76 -> Nat.even k = true ->
  exists w n1 n2, fibonacci_word k = Ok w /\ fibonacci_number (k - 1) = Ok n1 /\ fibonacci_number (k - 2) = Ok n2 /\
    count_lexparse_main sort w = Ok [LZ (N.to_nat n1) (N.to_nat n2); LZ 0 (N.to_nat n1 - 2); LZ 98 0; LZ 97 0].
Proof.
  intros sort k Hs Hk He. exists (F k), (N.of_nat (f (k - 1))), (N.of_nat (f (k - 2))).
  destruct (C42_exact k) as (E & _). specialize (E ltac:(lia)). split; [exact E|].
  split; [apply fib_number_len; lia|]. split; [apply fib_number_len; lia|]. rewrite !Nat2N.id.
  apply Nat.even_spec in He. destruct He as (h & Eh). assert (Em : k = 2 * (h - 1) + 2) by lia. assert (Hm1 : 1 <= h - 1) by lia. remember (h - 1) as m eqn:Hm. clear Hm h Eh.
  subst k. clear Hk E. replace (2 * m + 2 - 1) with (2 * m + 1) by lia. replace (2 * m + 2 - 2) with (2 * m) by lia.
  destruct (C73_lexparse_is_the_lexparse sort (F (2 * m + 2)) Hs) as (fs & EF & _ & HU).
  - exists 0, 1. destruct (F_begin (2 * m)) as (R & ER). replace (S (S (2 * m))) with (2 * m + 2) in ER by lia. rewrite ER. cbn. repeat split; lia.
  - rewrite EF. f_equal. symmetry. apply HU. now apply fib_even_lexparse.
Qed.
Print Assumptions C105_count_lexparse_even.

(** count_lexparse on the words of odd index: (k + 5) / 2 factors, the copies being shorter and shorter words of odd index *)
Lemma map_rev_seq {A} (g : nat -> A) m : map g (rev (seq 1 m)) = map (fun i => g (m - i)) (seq 0 m).
Proof.
  induction m as [|m IH]; [reflexivity|]. rewrite seq_S, rev_app_distr. cbn [rev app map seq]. rewrite IH, <- seq_shift, map_map. f_equal. 
Qed.
Theorem C105_count_lexparse_odd : forall sort k, (forall t, is_suffix_array t (sort t)) -> 5 <= k <= 74 -> Nat.odd k = true ->
  exists w fs, fibonacci_word k = Ok w /\ count_lexparse_main sort w = Ok fs /\ 2 * length fs = k + 5 /\
    map lz_len fs = [length (fib_word (k - 1)) - 2; length (fib_word (k - 4)) + 2] ++
      map (fun i => length (fib_word (k - 4 - 2 * i))) (seq 0 ((k - 5) / 2)) ++ [0; 1; 0].
Proof.
  intros sort k Hs Hk Ho. destruct (C42_exact k) as (E & _). specialize (E ltac:(lia)).
  apply Nat.odd_spec in Ho. destruct Ho as (h & Eh). assert (Em : k = 2 * (h - 2) + 5) by lia. remember (h - 2) as m eqn:Hm. clear Hm h Eh. exists (F k).
  destruct (C73_lexparse_is_the_lexparse sort (F k) Hs) as (fs & EF & HL & HU).
  - exists 0, 1. destruct (F_begin (k - 2)) as (R & ER). replace (S (S (k - 2))) with k in ER by lia. rewrite ER. cbn. repeat split; lia.
  - exists fs. split; [exact E|]. split; [exact EF|].
    assert (G : map lz_len fs = [length (fib_word (k - 1)) - 2; length (fib_word (k - 4)) + 2] ++
      map (fun i => length (fib_word (k - 4 - 2 * i))) (seq 0 ((k - 5) / 2)) ++ [0; 1; 0]).
    { clear E. replace ((k - 5) / 2) with m by (rewrite Em; replace (2 * m + 5 - 5) with (m * 2) by lia; now rewrite Nat.div_mul).
      destruct (Nat.eq_dec m 0) as [Z|Z].
      - clear Hk. assert (K5 : k = 5) by lia. clear Em. subst k. subst m.
        destruct (C73_lexparse_is_the_lexparse naive_sort (F 5) naive_sort_ok) as (gs & EG & GL & _); [exists 0, 1; cbn; repeat split; lia|].
        rewrite <- (HU _ GL). clear - EG. revert EG. vm_compute. intros EG. injection EG as <-. reflexivity.
      - destruct (ol_lens m ltac:(lia)) as (gs & GL & GE). rewrite <- Em in GL. rewrite <- (HU _ GL), GE. clear - Em. rewrite map_rev_seq. cbn [app].
        replace (2 * m + 4) with (k - 1) by lia. replace (2 * m + 1) with (k - 4) by lia. f_equal. f_equal. f_equal. apply map_ext_in. intros i Hi. apply in_seq in Hi. unfold f. f_equal. f_equal. lia. }
    split; [|exact G]. apply (f_equal (@length nat)) in G. rewrite !app_length, !map_length, seq_length in G. cbn [length] in G.
    replace ((k - 5) / 2) with m in G by (rewrite Em; replace (2 * m + 5 - 5) with (m * 2) by lia; now rewrite Nat.div_mul). lia.
Qed.
Print Assumptions C105_count_lexparse_odd.

(** count_r without -b on the words of odd index: k - 1 runs, and k runs with the terminator *)
Lemma dollar_letters w sa : ~ In 0 w -> 0 < length w -> is_perm (length w) sa ->
  sa_letters (w ++ [0]) (length w :: sa) = last w 0 :: map (fun q => if q =? 0 then 0 else last (rot q w) 0) sa.
Proof.
  intros H0 Hl HP. assert (HL : length (w ++ [0]) = S (length w)) by (rewrite app_length; simpl; lia). unfold sa_letters. cbn [map]. f_equal.
  - rewrite last_rot, last_nth by lia. rewrite HL. replace (length w + S (length w) - 1) with (length w - 1 + 1 * S (length w)) by lia. rewrite Nat.mod_add, Nat.mod_small by lia.
    apply app_nth1. lia.
  - apply map_ext_in. intros q Hq. apply (is_perm_In _ _ _ HP) in Hq. destruct (Nat.eqb_spec q 0) as [->|N0]; [rewrite rot_0; apply last_last|].
    rewrite !last_rot by lia. rewrite HL. replace (q + S (length w) - 1) with (q - 1 + 1 * S (length w)) by lia. rewrite Nat.mod_add, Nat.mod_small by lia.
    replace (q + length w - 1) with (q - 1 + 1 * length w) by lia. rewrite Nat.mod_add, Nat.mod_small by lia. apply app_nth1. lia.
Qed.
Theorem C105_count_r_odd : forall sort k, (forall t, is_suffix_array t (sort t)) -> 5 <= k <= 74 -> Nat.odd k = true ->
  exists w, fibonacci_word k = Ok w /\
    count_r_main sort true w 0 false true = Ok (length w, k - 1) /\
    count_r_main sort true w 0 false false = Ok (S (length w), k).
Proof.
  intros sort k Hs Hk Ho. destruct (C42_exact k) as (E & _). specialize (E ltac:(lia)). exists (F k). split; [exact E|]. clear E.
  apply Nat.odd_spec in Ho. destruct Ho as (h & Eh). assert (Em : k = 2 * (h - 2) + 5) by lia. remember (h - 2) as m eqn:Hm. clear Hm h Eh.
  destruct (fib_bwt_sa sort k Hs) as (B1 & B2). pose proof (proj1 (Hs (F k))) as HP. pose proof (is_perm_length _ _ HP) as LS.
  rewrite dollar_letters in B2; [|apply F_no0|apply f_pos|exact HP]. subst k. set (w := F (2 * m + 5)) in *.
  assert (LW : last w 0 = 98) by (rewrite <- (rot_0 w); exact (Lt_0 m)). rewrite LW in B2. split.
  - rewrite (count_r_ok _ _ _ _ _ _ _ B1). f_equal. f_equal; [unfold sa_letters; now rewrite map_length|].
    destruct (odd_runs m (sort w) (Hs w) 98 2 ltac:(left; auto)) as (l & rs & HR & HLn & _).
    replace (map (fun q => if q =? 0 then 98 else Lt_ m q) (sort w)) with (sa_letters w (sort w)) in HR.
    + rewrite (is_runs_unique _ _ _ (runs_ok _) HR). cbn [length]. lia.
    + apply map_ext. intros q. destruct (Nat.eqb_spec q 0) as [->|]; [exact (Lt_0 m)|reflexivity].
  - rewrite (count_r_ok _ _ _ _ _ _ _ B2). f_equal. f_equal; [cbn [length]; rewrite map_length; lia|].
    destruct (odd_runs m (sort w) (Hs w) 0 3 ltac:(right; lia)) as (l & rs & HR & HLn & _).
    change (fun q => if q =? 0 then 0 else Lt_ m q) with (fun q => if q =? 0 then 0 else last (rot q w) 0) in HR.
    assert (HR' : is_runs (98 :: map (fun q => if q =? 0 then 0 else last (rot q w) 0) (sort w)) ((98, S l) :: (97, 2) :: rs)).
    { destruct HR as (A & B & C). split; [|split].
      - rewrite <- A. reflexivity.
      - inversion B; subst. constructor; [cbn; lia|assumption].
      - intros i Hi. specialize (C i Hi). destruct i; exact C. }
    rewrite (is_runs_unique _ _ _ (runs_ok _) HR'). cbn [length]. lia.
Qed.
Print Assumptions C105_count_r_odd.
(** the formula fails at index 3, which has four runs in both variants *)
Theorem C105_count_r_three : forall sort, (forall t, is_suffix_array t (sort t)) -> exists w, fibonacci_word 3 = Ok w /\
    count_r_main sort true w 0 false true = Ok (5, 4) /\ count_r_main sort true w 0 false false = Ok (6, 4).
Proof.
  intros sort Hs. destruct (C42_exact 3) as (E & _). exists (F 3). split; [apply E; lia|].
  destruct (fib_bwt_sa sort 3 Hs) as (B1 & B2). rewrite (suffix_array_unique _ _ _ (Hs (F 3)) (naive_sort_ok (F 3))) in B1, B2.
  split; [rewrite (count_r_ok _ _ _ _ _ _ _ B1)|rewrite (count_r_ok _ _ _ _ _ _ _ B2)]; vm_compute; reflexivity.
Qed.
Print Assumptions C105_count_r_three.
Example C105_case : fibonacci_word 5 = Ok [97;98;97;97;98;97;98;97;97;98;97;97;98] /\
  count_r_main naive_sort true [97;98;97;97;98;97;98;97;97;98;97;97;98] 0 false true = Ok (13, 4) /\
  count_r_main naive_sort true [97;98;97;97;98;97;98;97;97;98;97;97;98] 0 false false = Ok (14, 5) /\
  option_map (map lz_len) (match count_z_main naive_sort [97;98;97;97;98;97;98;97;97;98;97;97;98] with Ok fs => Some fs | _ => None end) = Some [0; 0; 1; 3; 5; 2] /\
  count_lexparse_main naive_sort [97;98;97;97;98;97;98;97] = Ok [LZ 5 3; LZ 0 3; LZ 98 0; LZ 97 0] /\
  option_map (map lz_len) (match count_lexparse_main naive_sort (fib_word 7) with Ok fs => Some fs | _ => None end) = Some [19; 7; 5; 0; 1; 0].
Proof. vm_compute. repeat split; reflexivity. Qed.
