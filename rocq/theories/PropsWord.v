(** PropsWord.v : property theorems C42-C51 and C61 (src/word.rs). *)
From Verif Require Import Base SpecStr LexFacts SpecWord SpecIo ModelWord WordProof WordProof2 WordProof3 WordProof4.
From Coq Require Import NArith ZArith.

(** C42 *)
Theorem C42_fibonacci_word : forall k, k <= 74 -> fibonacci_word k = Ok (fib_word k) /\
  exists n, fibonacci_number k = Ok n /\ N.of_nat (length (fib_word k)) = n.
Proof.
  intros k Hk. split; [now apply fibonacci_word_ok|]. exists (fib (k + 2)). split; [apply fibonacci_number_ok; lia|].
  apply fib_word_length.
Qed.
Print Assumptions C42_fibonacci_word.
(** for no k at all is a wrong word returned *)
Theorem C42_never_wrong : forall k w, fibonacci_word k = Ok w -> w = fib_word k.
Proof. intros k w E. destruct (fibonacci_word_safe k) as [H|H]; rewrite E in H; [now injection H|discriminate]. Qed.
Print Assumptions C42_never_wrong.
Theorem C42_terminates : forall k, fibonacci_word k <> OutOfFuel.
Proof. intros k E. destruct (fibonacci_word_safe k) as [H|H]; rewrite E in H; discriminate. Qed.
Print Assumptions C42_terminates.
(** the word is returned exactly for k <= 74 and, by luck of the rounding, for k = 76 *)
Theorem C42_exact : forall k, (k <= 74 \/ k = 76 -> fibonacci_word k = Ok (fib_word k)) /\
  (k = 75 \/ 77 <= k -> fibonacci_word k = Panic).
Proof. intros k. destruct (fibonacci_word_exact k) as (H1 & H2). split; [exact H1|]. intros H. apply H2. lia. Qed.
Print Assumptions C42_exact.
Theorem C42_too_large : forall k, 77 <= k -> fibonacci_word k = Panic.
Proof. intros k H. apply C42_exact. now right. Qed.
Print Assumptions C42_too_large.
(** whatever buffer length the floating-point estimate produces, only a too short one can fail *)
Theorem C42_any_estimate : forall len k, k < 255 -> (fib (k + 2) < len)%N -> (len < 9223372036854775808)%N ->
  fibonacci_word_in len k = Ok (fib_word k).
Proof. apply fibonacci_word_in_ok. Qed.
Theorem C42_short_estimate : forall len k, k < 255 -> (0 < len < 9223372036854775808)%N ->
  (len < fib (k + 2) \/ len = fib (k + 2) /\ Nat.odd k = true)%N -> fibonacci_word_in len k = Panic.
Proof.
  intros len k Hk Hl [H|(H & Ho)]; [apply fibonacci_word_in_panic; lia|now apply fibonacci_word_in_exact_odd].
Qed.
Print Assumptions C42_short_estimate.
Print Assumptions C42_any_estimate.
(** the whole fits-in-memory range claimed at first: k = 75 has a length below 2^63 and still panics *)
Theorem C42_whole_range_refuted : (fib (75 + 2) < 9223372036854775808)%N /\ fibonacci_word 75 = Panic.
Proof. split; [rewrite fib_fast; vm_compute; reflexivity|apply C42_exact; lia]. Qed.
Print Assumptions C42_whole_range_refuted.
Example C42_case : fibonacci_word 5 = Ok [97;98;97;97;98;97;98;97;97;98;97;97;98].
Proof. vm_compute. reflexivity. Qed.

(** C43 *)
Theorem C43_fibonacci_number : forall k, k <= 91 -> fibonacci_number k = Ok (fib (k + 2)).
Proof. apply fibonacci_number_ok. Qed.
Theorem C43_overflow : forall k, 92 <= k -> fibonacci_number k = Panic.
Proof. apply fibonacci_number_overflow. Qed.
Print Assumptions C43_overflow.
Print Assumptions C43_fibonacci_number.
(** the floating-point estimate of word.rs:28-30 (a number m * 2^-p) is less than 1/2 away from the Fibonacci number up
    to index 74, and 1/2 away at index 75 *)
Definition close_to (x : SpecFloat.spec_float) (f : Z) : bool :=
  match x with
  | SpecFloat.S754_finite false m (Zneg p) => (2 * Z.abs (Z.pos m - f * 2 ^ Z.pos p) <? 2 ^ Z.pos p)%Z
  | SpecFloat.S754_finite false m e => (2 * Z.abs (Z.pos m * 2 ^ e - f) <? 1)%Z
  | _ => false
  end.
Theorem C43_estimate : forall k, 1 <= k <= 74 -> close_to (fibonacci_number_estimate k) (Z.of_N (fib k)) = true.
Proof.
  intros k Hk.
  assert (G : forallb (fun k => close_to (fibonacci_number_estimate k) (Z.of_N (fst (fib2 k)))) (seq 1 74) = true) by (vm_compute; reflexivity).
  rewrite forallb_forall in G. rewrite fib_fast. apply G. apply in_seq. lia.
Qed.
Print Assumptions C43_estimate.
(** and much closer for the smaller indices: both terms of Binet's formula matter *)
Definition within_thousandth (x : SpecFloat.spec_float) (f : Z) : bool :=
  match x with SpecFloat.S754_finite false m (Zneg p) => (1000 * Z.abs (Z.pos m - f * 2 ^ Z.pos p) <? 2 ^ Z.pos p)%Z | _ => false end.
Theorem C43_estimate_small : forall k, 1 <= k <= 55 -> within_thousandth (fibonacci_number_estimate k) (Z.of_N (fib k)) = true.
Proof.
  intros k Hk.
  assert (G : forallb (fun k => within_thousandth (fibonacci_number_estimate k) (Z.of_N (fst (fib2 k)))) (seq 1 55) = true) by (vm_compute; reflexivity).
  rewrite forallb_forall in G. rewrite fib_fast. apply G. apply in_seq. lia.
Qed.
Print Assumptions C43_estimate_small.
Theorem C43_estimate_refuted : close_to (fibonacci_number_estimate 75) (Z.of_N (fib 75)) = false.
Proof. rewrite fib_fast. vm_compute. reflexivity. Qed.
Print Assumptions C43_estimate_refuted.
Example C43_case : fibonacci_number 91 = Ok 12200160415121876738%N /\ fibonacci_number 92 = Panic.
Proof. split; vm_compute; reflexivity. Qed.

(** C44 *)
Definition tm_image (c : nat) : str := if c =? 97 then [97; 98] else [98; 97].
Theorem C44_thuemorse_word : forall k, k < 63 -> exists w, thuemorse_word k = Ok w /\ length w = 2 ^ k /\
  (forall i, i < 2 ^ k -> nth i w 0 = (if Nat.even (ones i) then 97 else 98)) /\
  w = iter_morphism tm_image k [97].
Proof.
  intros k Hk. destruct (thuemorse_word_ok k Hk) as (w & E & L & H). exists w. split; [exact E|]. split; [exact L|].
  split; [exact H|]. now apply tm_word_iter.
Qed.
Print Assumptions C44_thuemorse_word.
Theorem C44_too_large : forall k, 63 <= k -> thuemorse_word k = Panic.
Proof. apply thuemorse_word_panic. Qed.
Print Assumptions C44_too_large.
Example C44_case : thuemorse_word 4 = Ok [97;98;98;97;98;97;97;98;98;97;97;98;97;98;98;97].
Proof. vm_compute. reflexivity. Qed.

(** C61: the Thue-Morse word has no overlap (a factor x x c with c the first letter of x) *)
Theorem C61_thuemorse_overlap_free : forall k w, thuemorse_word k = Ok w ->
  forall u c x v, w <> u ++ (c :: x) ++ (c :: x) ++ c :: v.
Proof.
  intros k w E u c x v Ew.
  assert (Hk : k < 63) by (destruct (Nat.lt_ge_cases k 63) as [|C]; [assumption|rewrite thuemorse_word_panic in E by exact C; discriminate]).
  destruct (thuemorse_word_ok k Hk) as (w' & E' & L & H). rewrite E in E'. injection E' as <-.
  assert (Lw : length w = length u + 2 * S (length x) + 1 + length v) by (rewrite Ew, !app_length; cbn [length]; lia).
  apply (tm_overlap_free (S (length x)) (length u)); [lia|].
  intros j Hj. rewrite <- !H by lia.
  assert (EX : (c :: x) ++ c :: v = c :: (x ++ c :: v)) by reflexivity.
  change (S (length x)) with (length (c :: x)) in Hj |- *. change (length (c :: x)) with (S (length x)) in Lw.
  assert (LX : length (c :: x) = S (length x)) by reflexivity.
  remember (c :: x) as X eqn:HX. clear HX.
  rewrite Ew. rewrite (app_nth2 u) by lia. rewrite (app_nth2 u) by lia.
  replace (j + length X - length u) with (length X + (j - length u)) by lia.
  set (i := j - length u) in *. assert (Hi : i <= length X) by lia.
  rewrite (app_nth2 X) with (n := length X + i) by lia. replace (length X + i - length X) with i by lia.
  destruct (Nat.eq_dec i (length X)) as [Ei|Ni].
  - rewrite Ei, nth_middle. rewrite EX, nth_middle. reflexivity.
  - rewrite !(app_nth1 X) by lia. reflexivity.
Qed.
Print Assumptions C61_thuemorse_overlap_free.
(** squares do occur *)
Example C61_case : exists w u x v, thuemorse_word 3 = Ok w /\ w = u ++ x ++ x ++ v /\ x = [98].
Proof. exists [97;98;98;97;98;97;97;98], [97], [98], [97;98;97;97;98]. vm_compute. auto. Qed.

(** C45 *)
(** the letter standing for a run of the given length *)
Definition length_letter (l : nat) : nat := if l =? 1 then 97 else 98.
Theorem C45_kolakoski_word : forall k, k <= 60 -> exists w runs, kolakoski_word k = Ok w /\
  firstn 2 w = [98; 98] /\ is_runs w runs /\ Forall (fun r => 1 <= snd r <= 2) runs /\
  Forall (fun c => c = 97 \/ c = 98) w /\
  prefix (map (fun r => length_letter (snd r)) runs) w.
Proof.
  intros k Hk. exists (kol k). rewrite kolakoski_word_ok by exact Hk.
  assert (H2 : firstn 2 (kol k) = [98; 98]).
  { destruct (kol_prefix_le 0 k ltac:(lia)) as (r & ->). reflexivity. }
  assert (Hab : Forall (fun c => c = 97 \/ c = 98) (kol k)) by exact (kol_ab k).
  destruct k as [|k].
  - exists [(98, 2)]. split; [reflexivity|]. split; [reflexivity|]. split; [split; [reflexivity|split]|].
    + constructor; [simpl; lia|constructor].
    + intros i Hi. simpl in Hi. lia.
    + split; [constructor; [simpl; lia|constructor]|]. split; [exact Hab|]. exists [98]. reflexivity.
  - exists (kruns 98 (kol k)). split; [reflexivity|]. split; [exact H2|].
    split; [rewrite kol_S; apply kruns_spec; unfold ab; tauto|]. split.
    { generalize 98. induction (kol k) as [|c w IH]; intros x; simpl; constructor; [apply kval_pos|apply IH]. }
    split; [exact Hab|].
    assert (E : map (fun r => length_letter (snd r)) (kruns 98 (kol k)) = kol k).
    { pose proof (kol_ab k) as F. revert F. generalize 98. induction (kol k) as [|c w IH]; intros x F; [reflexivity|].
      inversion F as [|? ? Hc F']; subst. cbn [kruns map snd]. rewrite IH by exact F'. f_equal.
      destruct Hc as [->| ->]; reflexivity. }
    rewrite E. apply kol_prefix.
Qed.
Print Assumptions C45_kolakoski_word.
Theorem C45_words_grow : forall k w w', k < 60 -> kolakoski_word k = Ok w -> kolakoski_word (S k) = Ok w' ->
  prefix w w' /\ length w < length w'.
Proof.
  intros k w w' Hk E E'. rewrite kolakoski_word_ok in E, E' by lia. injection E as <-. injection E' as <-.
  split; [apply kol_prefix|apply kexp_grow].
Qed.
Print Assumptions C45_words_grow.
Theorem C45_too_large : forall k, 61 <= k -> kolakoski_word k = Panic.
Proof. apply kolakoski_word_panic. Qed.
Print Assumptions C45_too_large.
Example C45_case : kolakoski_word 4 = Ok [98;98;97;97;98;97;98;98;97;98;98;97;97;98].
Proof. vm_compute. reflexivity. Qed.

(** C46 *)
Definition pd_image (c : nat) : str := if c =? 97 then [97; 98] else [97; 97].
Theorem C46_period_doubling : forall k, k < 63 -> exists w, period_doubling_word k = Ok w /\ length w = 2 ^ k /\
  w = iter_morphism pd_image k [97] /\
  forall i e m, i < 2 ^ k -> i + 1 = 2 ^ e * (2 * m + 1) -> nth i w 0 = (if Nat.even e then 97 else 98).
Proof.
  intros k Hk. eexists. split; [apply period_doubling_word_ok; exact Hk|].
  split; [apply (u2_iter_length _ _ _ pdh_u2)|]. split; [reflexivity|]. intros i e m Hi E. now apply (pd_iter k i Hi e m).
Qed.
Print Assumptions C46_period_doubling.
Theorem C46_too_large : forall k, 63 <= k -> period_doubling_word k = Panic.
Proof. intros k Hk. now apply iterate_2morphism_panic. Qed.
Print Assumptions C46_too_large.
Example C46_case : period_doubling_word 3 = Ok [97;98;97;97;97;98;97;98].
Proof. vm_compute. reflexivity. Qed.

(** C47 *)
Theorem C47_tribonacci_word : forall k, (trib k < 9223372036854775808)%N -> tribonacci_word k = Ok (trib_word k) /\
  exists n, tribonacci_number k = Ok n /\ N.of_nat (length (trib_word k)) = n.
Proof.
  intros k Hk. split; [now apply tribonacci_word_ok|]. exists (trib k). split; [apply tribonacci_number_ok; lia|].
  apply trib_word_length.
Qed.
Print Assumptions C47_tribonacci_word.
Theorem C47_too_large : forall k, (9223372036854775808 <= trib k)%N -> tribonacci_word k = Panic.
Proof. apply tribonacci_word_panic. Qed.
Print Assumptions C47_too_large.
Theorem C47_tribonacci_number : forall k, tribonacci_number k =
  if (trib k <? 18446744073709551616)%N then Ok (trib k) else Panic.
Proof.
  intros k. destruct (N.ltb_spec (trib k) 18446744073709551616); [now apply tribonacci_number_ok|now apply tribonacci_number_overflow].
Qed.
Print Assumptions C47_tribonacci_number.
Example C47_case : tribonacci_word 4 = Ok [97;98;97;99;97;98;97;97;98;97;99;97;98] /\ (trib 4 < 9223372036854775808)%N.
Proof. split; vm_compute; reflexivity. Qed.

(** C48 *)
Definition vtm_image (c : nat) : str := if c =? 97 then [97; 98; 99] else if c =? 98 then [97; 99] else [98].
Theorem C48_vtm_word : forall k, k <= 29 -> exists w, vtm_word k = Ok w /\ w = iter_morphism vtm_image k [97] /\ square_free w.
Proof.
  intros k Hk. eexists. split; [now apply vtm_word_ok|]. split; [reflexivity|apply vtm_square_free].
Qed.
Print Assumptions C48_vtm_word.
Theorem C48_too_large : forall k, 30 <= k -> vtm_word k = Panic.
Proof. apply vtm_word_panic. Qed.
Print Assumptions C48_too_large.
Example C48_case : vtm_word 3 = Ok [97;98;99;97;99;98;97;98;99;98;97;99].
Proof. vm_compute. reflexivity. Qed.

(** C49: p is a prefix of the infinite Fibonacci word (the limit of the finite ones) *)
Definition fib_limit_prefix (p : str) : Prop := exists K, prefix p (fib_word K).
Theorem C49_fibonacci_lyndonfactor : exists ws : nat -> str,
  (forall k, k <= 29 -> fibonacci_lyndonfactor k = Ok (ws k)) /\
  (forall k, lyndon (ws k)) /\
  (forall j k, j < k -> lex_lt (ws k) (ws j)) /\
  (forall k, fib_limit_prefix (concat (map ws (seq 0 k)))).
Proof.
  exists lw. split; [apply fibonacci_lyndonfactor_ok|]. split; [apply lw_lyndon|]. split; [apply lw_decr_lt|].
  intros k. destruct (lcat_prefix k) as (K & c & H). exists K. eapply prefix_trans; [|exact H]. apply prefix_app.
Qed.
Print Assumptions C49_fibonacci_lyndonfactor.
Theorem C49_too_large : forall k, 30 <= k -> fibonacci_lyndonfactor k = Panic.
Proof. apply fibonacci_lyndonfactor_panic. Qed.
Print Assumptions C49_too_large.
Example C49_case : fibonacci_lyndonfactor 2 = Ok [97;97;98;97;97;98;97;98;97;97;98;97;98].
Proof. vm_compute. reflexivity. Qed.

(** C50 *)
Theorem C50_paperfolding : forall k, k < 62 -> exists w, paperfolding_word k = Ok w /\ length w = 2 ^ (k + 1) /\
  forall p e m, 1 <= p <= 2 ^ (k + 1) -> p = 2 ^ e * (2 * m + 1) ->
    nth (p - 1) w 0 = (if Nat.even m then 49 else 48).
Proof.
  intros k Hk. eexists. split; [now apply paperfolding_ok|]. split.
  - rewrite (u2_length _ _ pfe_u2), (u2_iter_length _ _ _ pfh_u2). rewrite Nat.add_1_r. simpl. lia.
  - intros p e m Hp E. apply (pf_word_nth k (p - 1) ltac:(rewrite Nat.add_1_r in Hp; lia) e m). lia.
Qed.
Print Assumptions C50_paperfolding.
Theorem C50_too_large : forall k, 62 <= k -> paperfolding_word k = Panic.
Proof. apply paperfolding_panic. Qed.
Print Assumptions C50_too_large.
Example C50_case : paperfolding_word 3 = Ok [49;49;48;49;49;48;48;49;49;49;48;48;49;48;48;49].
Proof. vm_compute. reflexivity. Qed.

(** C51 *)
Theorem C51_power2_sequence : forall k, k < 63 -> exists w, power2_sequence k = Ok w /\ length w = 2 ^ k /\
  (forall j, 1 <= j < 2 ^ k -> nth (j - 1) w 0 = 97 \/ nth (j - 1) w 0 = 98) /\
  (forall j, 1 <= j < 2 ^ k -> (nth (j - 1) w 0 = 98 <-> exists e, j = 2 ^ e)) /\
  nth (2 ^ k - 1) w 1 = 0.
Proof. intros k Hk. destruct (power2_ok k Hk) as (w & E & L & H0 & HA & HB). exists w. auto 6. Qed.
Print Assumptions C51_power2_sequence.
(** the last position is not the letter b although it is the power 2^k *)
Theorem C51_last_letter_refuted : forall k w, power2_sequence k = Ok w -> nth (2 ^ k - 1) w 0 <> 98.
Proof.
  intros k w E. destruct (Nat.lt_ge_cases k 63) as [C|C]; [|rewrite power2_panic in E by exact C; discriminate].
  destruct (power2_ok k C) as (w' & E' & L & H0 & _). rewrite E in E'. injection E' as <-.
  rewrite (nth_indep _ 0 1) by (rewrite L; pose proof (pow2_pos k); lia). rewrite H0. lia.
Qed.
Print Assumptions C51_last_letter_refuted.
Theorem C51_too_large : forall k, 63 <= k -> power2_sequence k = Panic.
Proof. apply power2_panic. Qed.
Print Assumptions C51_too_large.
Example C51_case : power2_sequence 3 = Ok [98;98;97;98;97;97;97;0].
Proof. vm_compute. reflexivity. Qed.
