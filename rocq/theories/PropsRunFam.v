(** PropsRunFam.v : property theorems C124, the number of runs of equal letters in the words of src/word.rs, which count_runs prints
    (src/bin/word.rs, src/bin/count_runs.rs, src/core.rs: number_of_runs). *)
From Verif Require Import Base SpecStr SpecIo SpecMain SpecWord SpecResult SpecArgs SpecArgs2 SpecFs LexFacts RunFacts.
From Verif Require Import ModelWord ModelIo ModelCore ModelMain ModelFs ModelArgs ModelArgs2.
From Verif Require Import WordProof WordProof2 WordProof3 WordProof4 FibFacts LynFam LynFam5 RunFam PropsWord PropsWord2 PropsArgs PropsArgs2 MainProof2 PropsSession PropsLynFam.
From Coq Require Import NArith.

(** the closed forms; the runs of the word kolakoski are in C122 *)
Definition runs_size (v : word_name) (k : nat) : option nat :=
  if k <=? writes_up_to v then
    match v with
    | Fibonacci => Some (2 * N.to_nat (fib k) + (if Nat.even k then 1 else 0))
    | FibonacciLyndonFactor => Some (2 * N.to_nat (fib (2 * k + 1)))
    | Tribonacci => Some (if k <? 4 then N.to_nat (trib k) else N.to_nat (trib k) - N.to_nat (trib (k - 4)) + (if k mod 3 =? 0 then 1 else 0))
    | ThueMorse | PeriodDoubling => Some ((2 ^ (k + 1) + (if Nat.even k then 1 else 2)) / 3)
    | PaperFolding => Some (if k =? 0 then 1 else 2 ^ k + 1)
    | QuaternaryPaperFolding => Some (2 ^ k)
    | Power2 => Some (if k =? 0 then 1 else if k =? 1 then 2 else 2 * k - 1)
    | Vtm => Some (if k =? 0 then 1 else 3 * 2 ^ (k - 1))
    | Kolakoski | BinaryDeBrujin => None
    end
  else None.
Lemma third x y : 3 * x = y -> y / 3 = x.
Proof. intros <-. rewrite Nat.mul_comm. now apply Nat.div_mul. Qed.
Lemma runs_size_rho v k n : runs_size v k = Some n -> exists w, word_main v k = Ok w /\ rho w = n.
Proof.
  intros H. unfold runs_size in H. destruct (Nat.leb_spec k (writes_up_to v)) as [B|B]; [|discriminate H].
  destruct v; try discriminate H; apply some_inj in H; cbn [word_main writes_up_to] in *.
  - exists (fib_word k). split; [now apply fibonacci_word_ok|]. rewrite rho_fib. exact H.
  - exists (lw k). split; [now apply fibonacci_lyndonfactor_ok|]. rewrite rho_lw. exact H.
  - exists (trib_word k). split; [now apply trib_writes|]. rewrite rho_trib. exact H.
  - destruct (C44_thuemorse_word k ltac:(lia)) as (w & E & _ & _ & Ew). exists w. split; [exact E|]. rewrite Ew. rewrite <- H. symmetry. apply third.
    replace (k + 1) with (S k) by lia. change tm_image with thuemorse_morphism. apply rho_tm.
  - exists (iter_morphism period_doubling_morphism k [97]). split; [apply period_doubling_word_ok; lia|]. rewrite <- H. symmetry. apply third. replace (k + 1) with (S k) by lia. apply rho_pd.
  - exists (flat_map pfe (iter_morphism pfh k [100])). split; [apply paperfolding_ok; lia|]. rewrite rho_pf. exact H.
  - exists (iter_morphism pfh k [100]). split; [apply quaternary_ok; lia|]. rewrite rho_quat. exact H.
  - destruct (Nat.eqb_spec k 0) as [->|K].
    + exists [0]. split; [vm_compute; reflexivity|exact H].
    + destruct (power2_ok k ltac:(lia)) as (w & EW & L & Z & AB & HB). exists w. split; [exact EW|]. rewrite (p2_concat k w ltac:(lia) L Z AB HB). rewrite rho_p2 by lia. exact H.
  - exists (iter_morphism vtm_morphism k [97]). split; [now apply vtm_word_ok|]. rewrite rho_vtm. exact H.
Qed.
(** the word has this number of maximal runs of equal letters, and number_of_runs finds it *)
Theorem C124_number_of_runs : forall v k n, runs_size v k = Some n -> exists w, word_main v k = Ok w /\
  (exists rs, is_runs w rs /\ length rs = n) /\
  forall rd fuel, delivers rd w -> length w < fuel -> number_of_runs fuel rd = Ok n.
Proof.
  intros v k n H. destruct (runs_size_rho v k n H) as (w & E & R). exists w. split; [exact E|]. split; [exists (runs w); split; [apply runs_ok|exact R]|].
  intros rd fuel HD HF. rewrite (number_of_runs_ok rd w fuel HD HF). unfold rho in R. now rewrite R.
Qed.
Print Assumptions C124_number_of_runs.
Lemma runs_size_writes v k n : runs_size v k = Some n -> writes v k.
Proof. unfold runs_size. destruct (Nat.leb_spec k (writes_up_to v)) as [B|B]; [left; exact B|discriminate]. Qed.
(** word -n s -k K -o F, then count_runs -i F, prints this number *)
Theorem C124_word_then_count_runs : forall fuel file_of us1 line1 s v k n F w0 us2 line2 input,
  good word_options us1 line1 -> In (s, v) the_words -> makes_word us1 s k F -> good count_runs_options us2 line2 -> uses_of us2 o_in = [[F]] ->
  runs_size v k = Some n ->
  exists p w t, word_program file_of line1 = Ran p /\ run p w0 = (w, Ok tt) /\ files w (file_of F) = Some t /\ described v k t /\
    (sees_by file_of w input -> length t < fuel -> exists d, count_runs_program fuel input line2 = Ran (Ok (d ++ newline)) /\ is_decimal d n).
Proof.
  intros fuel file_of us1 line1 s v k n F w0 us2 line2 input G1 HV (A & B & C) G2 D H.
  destruct (C124_number_of_runs v k n H) as (t & ET & _ & HR).
  destruct (C115_word file_of us1 line1 s v k F w0 G1 HV A B C (runs_size_writes v k n H)) as (p & w & t' & E & R & _ & W & ET' & DE).
  assert (t' = t) by congruence. subst t'.
  exists p, w, t. do 4 (split; [assumption|]). intros HS HF.
  destruct (proj1 (C112_count_runs fuel input line2) us2 G2) as (i & Si & E2). rewrite (string_is _ _ _ _ Si D) in E2.
  rewrite (HR (input (Some F)) fuel (HS F t W) HF) in E2. exists (dec_usize n). split; [exact E2|apply dec_usize_ok].
Qed.
Print Assumptions C124_word_then_count_runs.
(** every run of the quaternary paperfolding word and of the ternary Thue-Morse word is a single letter; half of the letters of the paperfolding
    word and two thirds of those of the Thue-Morse and period-doubling words start one *)
Theorem C124_shares : forall k,
  (forall n w, runs_size QuaternaryPaperFolding k = Some n -> word_main QuaternaryPaperFolding k = Ok w -> n = length w) /\
  (forall n w, runs_size Vtm k = Some n -> word_main Vtm k = Ok w -> n = length w) /\
  (forall n w, 1 <= k -> runs_size PaperFolding k = Some n -> word_main PaperFolding k = Ok w -> 2 * n = length w + 2) /\
  (forall n w, runs_size ThueMorse k = Some n -> word_main ThueMorse k = Ok w -> 2 * length w + 1 <= 3 * n <= 2 * length w + 2) /\
  (forall n w, runs_size PeriodDoubling k = Some n -> word_main PeriodDoubling k = Ok w -> 2 * length w + 1 <= 3 * n <= 2 * length w + 2).
Proof.
  intros k. split; [|split; [|split; [|split]]]; intros n w.
  - intros H E. assert (B : k <= 62) by (destruct (runs_size_writes _ _ _ H) as [X|[X _]]; [exact X|discriminate X]).
    destruct (runs_size_rho _ _ _ H) as (w' & E' & R). assert (w' = w) by congruence. subst w'. cbn [word_main] in E. rewrite quaternary_ok in E by lia.
    assert (w = iter_morphism pfh k [100]) by congruence. subst w. rewrite rho_quat in R. rewrite (u2_iter_length _ _ _ pfh_u2). now symmetry.
  - intros H E. assert (B : k <= 29) by (destruct (runs_size_writes _ _ _ H) as [X|[X _]]; [exact X|discriminate X]).
    destruct (runs_size_rho _ _ _ H) as (w' & E' & R). assert (w' = w) by congruence. subst w'. cbn [word_main] in E. rewrite vtm_word_ok in E by exact B.
    assert (w = iter_morphism vtm_morphism k [97]) by congruence. subst w. rewrite rho_vtm in R. destruct k as [|k]; [symmetry; exact R|]. cbn [Nat.eqb] in R. rewrite vm_len. now replace (S k - 1) with k in R by lia.
  - intros K H E. assert (B : k <= 61) by (destruct (runs_size_writes _ _ _ H) as [X|[X _]]; [exact X|discriminate X]).
    destruct (runs_size_rho _ _ _ H) as (w' & E' & R). assert (w' = w) by congruence. subst w'. cbn [word_main] in E. rewrite paperfolding_ok in E by lia.
    assert (w = flat_map pfe (iter_morphism pfh k [100])) by congruence. subst w. rewrite rho_pf in R. destruct (Nat.eqb_spec k 0); [lia|].
    rewrite (u2_length _ _ pfe_u2), (u2_iter_length _ _ _ pfh_u2). lia.
  - intros H E. assert (B : k <= 62) by (destruct (runs_size_writes _ _ _ H) as [X|[X _]]; [exact X|discriminate X]).
    destruct (runs_size_rho _ _ _ H) as (w' & E' & R). assert (w' = w) by congruence. subst w'. cbn [word_main] in E.
    destruct (C44_thuemorse_word k ltac:(lia)) as (w2 & E2 & L & _ & Ew). assert (Q : w2 = w) by congruence. rewrite Q in L, Ew. rewrite L. rewrite Ew in R.
    pose proof (rho_tm k) as J. change thuemorse_morphism with tm_image in J. cbn [Nat.pow] in J. destruct (Nat.even k); lia.
  - intros H E. assert (B : k <= 62) by (destruct (runs_size_writes _ _ _ H) as [X|[X _]]; [exact X|discriminate X]).
    destruct (runs_size_rho _ _ _ H) as (w' & E' & R). assert (w' = w) by congruence. subst w'. cbn [word_main] in E. rewrite period_doubling_word_ok in E by lia.
    assert (w = iter_morphism period_doubling_morphism k [97]) by congruence. subst w. rewrite (u2_iter_length _ _ _ pdh_u2).
    pose proof (rho_pd k) as J. cbn [Nat.pow] in J. destruct (Nat.even k); lia.
Qed.
Print Assumptions C124_shares.
(** the words and number_of_runs, executed *)
Example C124_case :
  (exists w, fibonacci_word 7 = Ok w /\ number_of_runs 50 (reader_of w) = Ok 26) /\ runs_size Fibonacci 7 = Some 26 /\
  (exists w, tribonacci_word 6 = Ok w /\ number_of_runs 50 (reader_of w) = Ok 41) /\ runs_size Tribonacci 6 = Some 41 /\
  (exists w, fibonacci_lyndonfactor 3 = Ok w /\ number_of_runs 50 (reader_of w) = Ok 26) /\ runs_size FibonacciLyndonFactor 3 = Some 26 /\
  (exists w, thuemorse_word 5 = Ok w /\ number_of_runs 50 (reader_of w) = Ok 22) /\ runs_size ThueMorse 5 = Some 22 /\
  (exists w, period_doubling_word 4 = Ok w /\ number_of_runs 50 (reader_of w) = Ok 11) /\ runs_size PeriodDoubling 4 = Some 11 /\
  (exists w, paperfolding_word 4 = Ok w /\ number_of_runs 50 (reader_of w) = Ok 17) /\ runs_size PaperFolding 4 = Some 17 /\
  (exists w, quaternary_paperfolding_word 4 = Ok w /\ number_of_runs 50 (reader_of w) = Ok 16) /\ runs_size QuaternaryPaperFolding 4 = Some 16 /\
  (exists w, power2_sequence 4 = Ok w /\ number_of_runs 50 (reader_of w) = Ok 7) /\ runs_size Power2 4 = Some 7 /\
  (exists w, vtm_word 4 = Ok w /\ number_of_runs 50 (reader_of w) = Ok 24) /\ runs_size Vtm 4 = Some 24.
Proof. repeat (split; [eexists; split; vm_compute; reflexivity|]; split; [vm_compute; reflexivity|]). split; [eexists; split; vm_compute; reflexivity|vm_compute; reflexivity]. Qed.
(** word -n thue-morse -k3 -o F; count_runs -i F prints 6 *)
Example C124_session_case : forall file_of w0 input fuel,
  let us1 := [(o_name, [ascii "thue-morse"]); (o_k, [ascii "3"]); (o_out, [ascii "F"])] in let us2 := [(o_in, [ascii "F"])] in
  good word_options us1 (ws ["-n"; "thue-morse"; "-k3"; "-o"; "F"]%string) /\ makes_word us1 (ascii "thue-morse") 3 (ascii "F") /\
  good count_runs_options us2 (ws ["-i"; "F"]%string) /\ runs_size ThueMorse 3 = Some 6 /\
  exists p w t, word_program file_of (ws ["-n"; "thue-morse"; "-k3"; "-o"; "F"]%string) = Ran p /\ run p w0 = (w, Ok tt) /\ files w (file_of (ascii "F")) = Some t /\
    (sees_by file_of w input -> length t < fuel -> exists d, count_runs_program fuel input (ws ["-i"; "F"]%string) = Ran (Ok (d ++ newline)) /\ is_decimal d 6).
Proof.
  intros file_of w0 input fuel us1 us2. destruct (C115_case file_of 0 w0 (fun _ => [])) as (G1 & M1 & _). fold us1 in G1, M1. split; [exact G1|]. split; [exact M1|].
  assert (G2 : good count_runs_options us2 (ws ["-i"; "F"]%string)).
  { split.
    - eexists. split; [|left; reflexivity].
      change (spelled count_runs_options ([(o_in, [ascii "F"])] ++ []) (ws ["-i"; "F"]%string ++ [])).
      constructor; [apply (pc_short count_runs_options [] [] o_in 105 [ascii "F"]); [constructor|find_in|reflexivity|reflexivity|]|constructor].
      split; [discriminate|]. split; [|reflexivity]. constructor; [intros (x & y & X); discriminate X|constructor].
    - split; [|split; [|split]].
      + constructor; [constructor; [exists (VStr (ascii "F")); constructor|constructor]|constructor].
      + apply Forall_forall. repeat (constructor; [right; apply Nat.leb_le; vm_compute; reflexivity|]). constructor.
      + repeat constructor; discriminate.
      + intros a Ha R. exfalso. revert a Ha R. apply (proj1 (Forall_forall (fun a => arg_required a = true -> False) count_runs_options)). repeat (constructor; [intros R; discriminate R|]). constructor. }
  split; [exact G2|]. split; [vm_compute; reflexivity|].
  destruct (C124_word_then_count_runs fuel file_of us1 _ (ascii "thue-morse") ThueMorse 3 6 (ascii "F") w0 us2 _ input G1 ltac:(find_in) M1 G2 ltac:(reflexivity) ltac:(reflexivity))
    as (p & w & t & E & R & W & D & H).
  exists p, w, t. do 3 (split; [assumption|]). exact H.
Qed.
