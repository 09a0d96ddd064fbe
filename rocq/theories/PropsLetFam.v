(** PropsLetFam.v : property theorems C125, how often each letter occurs in the words of src/word.rs, and what count_sigma prints for them
    (src/bin/word.rs, src/bin/count_sigma.rs). *)
From Verif Require Import Base SpecStr SpecIo SpecMain SpecWord SpecResult SpecArgs SpecArgs2 SpecFs LexFacts.
From Verif Require Import ModelWord ModelIo ModelTools ModelCore ModelMain ModelResult ModelFs ModelArgs ModelArgs2.
From Verif Require Import WordProof WordProof2 WordProof3 WordProof4 FibFacts LynFam LynFam5 RunFam LetFam NeckProof PropsTools PropsWord PropsWord2 PropsNeck PropsResult PropsArgs PropsArgs2 MainProof2 PropsSession PropsLynFam PropsKolakoski PropsDebruijn.
From Coq Require Import NArith.

(** the letters with their numbers of occurrences; a number can be 0 for the smallest words *)
Definition letters (v : word_name) (k : nat) : option (list (nat * nat)) :=
  if k <=? writes_up_to v then
    match v with
    | Fibonacci => Some [(97, N.to_nat (fib (k + 1))); (98, N.to_nat (fib k))]
    | FibonacciLyndonFactor => Some [(97, N.to_nat (fib (2 * k + 2))); (98, N.to_nat (fib (2 * k + 1)))]
    | Tribonacci => Some [(97, if k =? 0 then 1 else N.to_nat (trib (k - 1))); (98, if k =? 0 then 0 else if k =? 1 then 1 else N.to_nat (trib (k - 2)));
                          (99, if k <=? 1 then 0 else if k =? 2 then 1 else N.to_nat (trib (k - 3)))]
    | ThueMorse => Some (if k =? 0 then [(97, 1)] else [(97, 2 ^ (k - 1)); (98, 2 ^ (k - 1))])
    | PeriodDoubling => Some (if Nat.even k then [(97, (2 ^ (k + 1) + 1) / 3); (98, (2 ^ k - 1) / 3)] else [(97, (2 ^ (k + 1) - 1) / 3); (98, (2 ^ k + 1) / 3)])
    | PaperFolding => Some [(49, 2 ^ k + 1); (48, 2 ^ k - 1)]
    | QuaternaryPaperFolding => Some (if k =? 0 then [(100, 1)] else if k =? 1 then [(100, 1); (98, 1)]
                                      else [(97, 2 ^ (k - 2) - 1); (98, 2 ^ (k - 2) + 1); (99, 2 ^ (k - 2)); (100, 2 ^ (k - 2))])
    | Power2 => Some (if k =? 0 then [(0, 1)] else [(97, 2 ^ k - k - 1); (98, k); (0, 1)])
    | Vtm => Some (if k =? 0 then [(97, 1)] else [(97, 2 ^ (k - 1)); (98, 2 ^ (k - 1)); (99, 2 ^ (k - 1))])
    | Kolakoski | BinaryDeBrujin => None
    end
  else None.
(** the word has the letters of the list, each as often as it says *)
Definition has_letters (w : str) (ls : list (nat * nat)) : Prop :=
  NoDup (map fst ls) /\ (forall c, In c w -> In c (map fst ls)) /\ (forall c n, In (c, n) ls -> count_occ Nat.eq_dec w c = n).
Lemma ll_inj (a b : list (nat * nat)) : Some a = Some b -> b = a. Proof. congruence. Qed.
Ltac nodup := repeat (constructor; [cbn; intuition discriminate|]); constructor.
Lemma over_ab w x y : Forall ab w -> cnt w 97 = x -> cnt w 98 = y -> has_letters w [(97, x); (98, y)].
Proof.
  intros F A B. split; [nodup|]. split.
  - intros c Hc. rewrite Forall_forall in F. destruct (F c Hc) as [-> | ->]; cbn; auto.
  - intros c n [E|[E|[]]]; injection E as <- <-; assumption.
Qed.
Lemma over_3 w x y z : Forall abc3 w -> cnt w 97 = x -> cnt w 98 = y -> cnt w 99 = z -> has_letters w [(97, x); (98, y); (99, z)].
Proof.
  intros F A B C. split; [nodup|]. split.
  - intros c Hc. rewrite Forall_forall in F. destruct (F c Hc) as [-> |[-> | ->]]; cbn; auto.
  - intros c n [E|[E|[E|[]]]]; injection E as <- <-; assumption.
Qed.
Lemma tw_abc k : Forall abc3 (trib_word k).
Proof.
  enough (G : Forall abc3 (trib_word k) /\ Forall abc3 (trib_word (S k)) /\ Forall abc3 (trib_word (S (S k)))) by apply G.
  induction k as [|k (A & B & C)]; [split; [|split]; repeat (apply Forall_cons; [unfold abc3; tauto|]); constructor|].
  split; [exact B|]. split; [exact C|]. rewrite trib_word_SSS. repeat (apply Forall_app; split); assumption.
Qed.
Lemma fw_ab k : Forall ab (fib_word k).
Proof. apply F_letters. Qed.
Lemma pfe_bits w : Forall (fun c => c = 49 \/ c = 48) (flat_map pfe w).
Proof.
  induction w as [|c w IH]; [constructor|]. cbn [flat_map]. apply Forall_app. split; [|exact IH]. unfold pfe.
  destruct (c =? 100); [|destruct (c =? 98); [|destruct (c =? 99)]]; repeat (apply Forall_cons; [tauto|]); constructor.
Qed.
(** the words have these letters *)
Theorem C125_letters : forall v k ls, letters v k = Some ls -> exists w, word_main v k = Ok w /\ has_letters w ls.
Proof.
  intros v k ls H. unfold letters in H. destruct (Nat.leb_spec k (writes_up_to v)) as [B|B]; [|discriminate H].
  destruct v; try discriminate H; apply ll_inj in H; subst ls; cbn [word_main writes_up_to] in *.
  - exists (fib_word k). split; [now apply fibonacci_word_ok|]. destruct (fw_cnt k) as (X & Y). apply over_ab; [apply fw_ab|exact X|exact Y].
  - exists (lw k). split; [now apply fibonacci_lyndonfactor_ok|]. destruct (lw_cnt k) as (X & Y). apply over_ab; [apply lw_ab|exact X|exact Y].
  - exists (trib_word k). split; [now apply trib_writes|]. destruct (tw_cnt k) as (X & Y & Z). apply over_3; [apply tw_abc| | |].
    + rewrite X. unfold tl_before. destruct k as [|k]; reflexivity.
    + rewrite Y. unfold tl_before. destruct k as [|[|k]]; reflexivity.
    + rewrite Z. unfold tl_before. destruct k as [|[|[|k]]]; reflexivity.
  - destruct (C44_thuemorse_word k ltac:(lia)) as (w & E & _ & _ & Ew). exists w. split; [exact E|]. rewrite Ew. change tm_image with thuemorse_morphism.
    destruct k as [|k]; [split; [nodup|]; split; [intros c [<-|[]]; cbn; auto|]; intros c n [X|[]]; injection X as <- <-; reflexivity|].
    cbn [Nat.eqb]. replace (S k - 1) with k by lia. destruct (tm_cnt k) as (X & Y). apply over_ab; [apply ab_iter; [apply tmm_ab|repeat constructor; unfold ab; tauto]|exact X|exact Y].
  - set (w := iter_morphism period_doubling_morphism k [97]). assert (F : Forall ab w) by (apply ab_iter; [apply pdm_ab|repeat constructor; unfold ab; tauto]).
    exists w. split; [apply period_doubling_word_ok; lia|]. pose proof (pd_cnt k) as J. fold w in J. pose proof (ab_len w F) as L. unfold w in L at 3. rewrite (u2_iter_length _ _ _ pdh_u2) in L.
    pose proof (LynFam5.pow_pos k). replace (k + 1) with (S k) by lia. cbn [Nat.pow] in *. destruct (Nat.even k); apply over_ab; auto;
    apply (Nat.div_unique _ 3 _ 0); lia.
  - set (w := flat_map pfe (iter_morphism pfh k [100])). exists w. split; [apply paperfolding_ok; lia|]. destruct (p_cnt k) as (X & Y). split; [nodup|]. split.
    + intros c Hc. pose proof (pfe_bits (iter_morphism pfh k [100])) as F. rewrite Forall_forall in F. destruct (F c Hc) as [-> | ->]; cbn; auto.
    + intros c n [E|[E|[]]]; injection E as <- <-; assumption.
  - set (w := iter_morphism pfh k [100]). exists w. split; [apply quaternary_ok; lia|]. subst w. destruct k as [|[|k]].
    + split; [nodup|]. split; [intros c [<-|[]]; cbn; auto|]. intros c n [X|[]]; injection X as <- <-; reflexivity.
    + split; [nodup|]. split; [intros c [<-|[<-|[]]]; cbn; auto|]. intros c n [X|[X|[]]]; injection X as <- <-; reflexivity.
    + cbn [Nat.eqb]. replace (S (S k) - 2) with k by lia. destruct (q_cnt k) as (X & Y & Z & U). split; [nodup|]. split.
      * intros c Hc. pose proof (pf_iter_quat (S (S k))) as F. rewrite Forall_forall in F. destruct (F c Hc) as [-> |[-> |[-> | ->]]]; cbn; auto.
      * intros c n [E|[E|[E|[E|[]]]]]; injection E as <- <-; assumption.
  - destruct (Nat.eqb_spec k 0) as [->|K].
    + exists [0]. split; [vm_compute; reflexivity|]. split; [nodup|]. split; [intros c [<-|[]]; cbn; auto|]. intros c n [X|[]]; injection X as <- <-; reflexivity.
    + destruct (power2_ok k ltac:(lia)) as (w & EW & L & Z & AB & HB). exists w. split; [exact EW|]. pose proof (p2_concat k w ltac:(lia) L Z AB HB) as E.
      destruct (p2_cnt k ltac:(lia)) as (X & Y & U). rewrite <- E in X, Y, U. split; [nodup|]. split.
      * intros c Hc. destruct (In_nth w c 0 Hc) as (i & Hi & <-). rewrite L in Hi. destruct (Nat.eq_dec i (2 ^ k - 1)) as [->|N]; [rewrite (nth_indep _ 0 1) by lia; rewrite Z; cbn; auto|].
        destruct (AB (i + 1) ltac:(lia)) as [Q|Q]; replace (i + 1 - 1) with i in Q by lia; rewrite Q; cbn; auto.
      * intros c n [E'|[E'|[E'|[]]]]; injection E' as <- <-; assumption.
  - set (w := iter_morphism vtm_morphism k [97]). exists w. split; [now apply vtm_word_ok|]. subst w. destruct k as [|k].
    + split; [nodup|]. split; [intros c [<-|[]]; cbn; auto|]. intros c n [X|[]]; injection X as <- <-; reflexivity.
    + cbn [Nat.eqb]. replace (S k - 1) with k by lia. destruct (v_cnt k) as (F & X & Y & Z). now apply over_3.
Qed.
Print Assumptions C125_letters.

(** the number of different letters *)
Definition different_letters (w : str) (n : nat) : Prop := exists D, NoDup D /\ (forall c, In c D <-> In c w) /\ length D = n.
Definition sigma_size (v : word_name) (k : nat) : nat :=
  match v with
  | Fibonacci | ThueMorse | PeriodDoubling | PaperFolding | Kolakoski => if k =? 0 then 1 else 2
  | FibonacciLyndonFactor | BinaryDeBrujin => 2
  | Tribonacci => if k =? 0 then 1 else if k =? 1 then 2 else 3
  | QuaternaryPaperFolding => if k =? 0 then 1 else if k =? 1 then 2 else if k =? 2 then 3 else 4
  | Power2 => if k =? 0 then 1 else if k =? 1 then 2 else 3
  | Vtm => if k =? 0 then 1 else 3
  end.
Lemma used_letters w ls : has_letters w ls -> different_letters w (length (filter (fun p => 0 <? snd p) ls)).
Proof.
  intros (N & S & C). exists (map fst (filter (fun p => 0 <? snd p) ls)). split; [|split; [|apply map_length]].
  - clear - N. induction ls as [|[c n] ls IH]; [constructor|]. inversion N as [|? ? X N']; subst. cbn [filter snd]. destruct (0 <? n); [|now apply IH].
    cbn [map fst]. constructor; [|now apply IH]. intros Y. apply X. apply in_map_iff in Y. destruct Y as (p & E & Hp). apply filter_In in Hp. apply in_map_iff. exists p. tauto.
  - intros c. rewrite in_map_iff. split.
    + intros ((c' & n) & E & H). cbn [fst] in E. subst c'. apply filter_In in H. destruct H as (H & P). cbn [snd] in P. apply Nat.ltb_lt in P. apply cnt_in. unfold cnt. now rewrite (C _ _ H).
    + intros H. specialize (S c H). apply in_map_iff in S. destruct S as ((c' & n) & E & Hp). cbn [fst] in E. subst c'. exists (c, n). split; [reflexivity|]. apply filter_In. split; [exact Hp|].
      cbn [snd]. apply Nat.ltb_lt. rewrite <- (C _ _ Hp). apply cnt_in in H. exact H.
Qed.
Lemma fib_pos1 k : (0 < fib (S k))%N.
Proof. induction k as [|k IH]; [cbn; lia|]. rewrite fib_SS. lia. Qed.
Lemma trib_pos0 k : 0 < N.to_nat (trib k). Proof. pose proof (trib_pos k). lia. Qed.
Ltac pos := match goal with |- context [0 <? ?x] => replace (0 <? x) with true; [cbv iota|symmetry; apply Nat.ltb_lt] end.
Theorem C125_sigma : forall v k, k <= writes_up_to v -> exists w, word_main v k = Ok w /\ different_letters w (sigma_size v k).
Proof.
  intros v k B. destruct (letters v k) as [ls|] eqn:E.
  - destruct (C125_letters v k ls E) as (w & EW & HL). exists w. split; [exact EW|]. apply used_letters in HL.
    replace (sigma_size v k) with (length (filter (fun p => 0 <? snd p) ls)); [exact HL|]. clear w EW HL.
    unfold letters in E. destruct (Nat.leb_spec k (writes_up_to v)); [|discriminate E]. pose proof (LynFam5.pow_pos k) as P0.
    destruct v; try discriminate E; apply ll_inj in E; subst ls; cbn [sigma_size].
    + destruct k as [|k]; [reflexivity|]. cbn [filter snd Nat.eqb]. pose proof (fib_pos1 k). replace (S k + 1) with (S (S k)) by lia. pose proof (fib_pos1 (S k)). do 2 (pos; [|lia]). reflexivity.
    + cbn [filter snd]. replace (2 * k + 2) with (S (2 * k + 1)) by lia. replace (2 * k + 1) with (S (2 * k)) by lia. pose proof (fib_pos1 (2 * k)). pose proof (fib_pos1 (S (2 * k))). do 2 (pos; [|lia]). reflexivity.
    + destruct k as [|[|[|k]]]; [reflexivity|reflexivity|reflexivity|]. cbn [filter snd Nat.eqb Nat.leb]. do 3 (pos; [|apply trib_pos0]). reflexivity.
    + destruct k as [|k]; [reflexivity|]. cbn [filter snd Nat.eqb]. pose proof (LynFam5.pow_pos (S k - 1)). pos; [|lia]. reflexivity.
    + destruct k as [|k]; [reflexivity|]. replace (S k + 1) with (S (S k)) by lia. pose proof (LynFam5.pow_pos k). cbn [Nat.eqb].
      destruct (Nat.even (S k)) eqn:EV; cbn [filter snd].
      * destruct k as [|k]; [discriminate EV|]. pose proof (LynFam5.pow_pos k). do 2 (pos; [|apply Nat.div_str_pos; cbn [Nat.pow] in *; lia]). reflexivity.
      * do 2 (pos; [|apply Nat.div_str_pos; cbn [Nat.pow] in *; lia]). reflexivity.
    + destruct k as [|k]; [reflexivity|]. cbn [filter snd Nat.eqb]. pose proof (LynFam5.pow_pos k). do 2 (pos; [|cbn [Nat.pow] in *; lia]). reflexivity.
    + destruct k as [|[|[|k]]]; [reflexivity|reflexivity|reflexivity|]. cbn [filter snd Nat.eqb]. replace (S (S (S k)) - 2) with (S k) by lia. pose proof (LynFam5.pow_pos k). do 3 (pos; [|cbn [Nat.pow] in *; lia]). reflexivity.
    + destruct k as [|[|k]]; [reflexivity|reflexivity|]. cbn [filter snd Nat.eqb]. assert (Q : k + 4 <= 2 ^ (S (S k))) by (clear; induction k as [|k IH]; [reflexivity|]; cbn [Nat.pow] in *; lia).
      do 3 (pos; [|lia]). reflexivity.
    + destruct k as [|k]; [reflexivity|]. cbn [filter snd Nat.eqb]. pose proof (LynFam5.pow_pos (S k - 1)). pos; [|lia]. reflexivity.
  - unfold letters in E. destruct (Nat.leb_spec k (writes_up_to v)); [|lia]. destruct v; try discriminate E; clear E; cbn [word_main writes_up_to sigma_size] in *.
    + exists (kol k). split; [now apply kolakoski_word_ok|]. destruct k as [|k].
      * exists [98]. split; [nodup|]. split; [|reflexivity]. intros c. change (kol 0) with [98; 98]. cbn. intuition.
      * exists [97; 98]. split; [nodup|]. split; [|reflexivity]. intros c. pose proof (kol_ab (S k)) as FA. rewrite Forall_forall in FA.
        pose proof (kol_balance (S k)) as (B1 & B2). pose proof (ab_count _ (kol_ab (S k))) as L. unfold letters_a, letters_b in *.
        assert (L3 : 3 <= length (kol (S k))). { clear. induction k as [|k IH]; [apply Nat.leb_le; vm_compute; reflexivity|]. pose proof (kexp_grow (S k)). lia. }
        assert (IA : In 97 (kol (S k))) by (apply (count_occ_In Nat.eq_dec); lia). assert (IB : In 98 (kol (S k))) by (apply (count_occ_In Nat.eq_dec); lia).
        split; [intros [<-|[<-|[]]]; assumption|]. intros Hc. destruct (FA c Hc) as [-> | ->]; cbn; auto.
    + destruct (C52_debruijn_windows_unique k) as (w & EW & (L1 & _) & FA & ET & _). exists w. split; [exact EW|].
      exists [97; 98]. split; [nodup|]. split; [|reflexivity]. pose proof (debruijn_primitive k w EW) as PR. rewrite Forall_forall in FA.
      assert (IA : In 97 w). { rewrite <- (firstn_skipn (length w - (k + 1)) w), ET. apply in_or_app. right. rewrite Nat.add_1_r. now left. }
      assert (IB : In 98 w).
      { destruct (in_dec Nat.eq_dec 98 w) as [X|X]; [exact X|]. exfalso. apply PR. exists [97], (length w). split; [lia|].
        assert (R : w = repeat 97 (length w)). { apply Forall_eq_repeat. apply Forall_forall. intros c Hc. destruct (FA c Hc) as [-> | ->]; [reflexivity|contradiction]. }
        rewrite R at 1. clear. induction (length w) as [|n IH]; [reflexivity|]. cbn [repeat]. rewrite IH. reflexivity. }
      intros c. split; [intros [<-|[<-|[]]]; assumption|]. intros Hc. destruct (FA c Hc) as [-> | ->]; cbn; auto.
Qed.
Print Assumptions C125_sigma.
Lemma word_bytes v k w : k <= writes_up_to v -> word_main v k = Ok w -> bytes w.
Proof.
  intros B E. destruct (letters v k) as [ls|] eqn:EL.
  - destruct (C125_letters v k ls EL) as (w' & E' & (_ & S & _)). assert (w' = w) by congruence. subst w'. unfold bytes. apply Forall_forall. intros c Hc. specialize (S c Hc).
    assert (Q : Forall (fun c => c < 256) (map fst ls)).
    { clear - EL. unfold letters in EL. destruct (k <=? writes_up_to v); [|discriminate EL]. destruct v; try discriminate EL; apply ll_inj in EL; subst ls; try (destruct (k =? 0)); try (destruct (k =? 1)); try (destruct (Nat.even k));
      cbn [map fst]; repeat (apply Forall_cons; [apply Nat.ltb_lt; reflexivity|]); constructor. }
    rewrite Forall_forall in Q. now apply Q.
  - unfold letters in EL. destruct (Nat.leb_spec k (writes_up_to v)); [|lia]. destruct v; try discriminate EL; cbn [word_main writes_up_to] in *.
    + rewrite kolakoski_word_ok in E by exact B. assert (kol k = w) by congruence. subst w. eapply Forall_impl; [|apply kol_ab]. intros c [-> | ->]; apply Nat.ltb_lt; reflexivity.
    + destruct (C52_debruijn_windows_unique k) as (w' & E' & _ & FA & _). assert (w' = w) by congruence. subst w'. eapply Forall_impl; [|exact FA]. intros c [-> | ->]; apply Nat.ltb_lt; reflexivity.
Qed.
Definition count_sigma_line (F : str) (time n sigma : nat) (line : str) : Prop := exists dt dn ds,
  result_line line [(ascii "algo", ascii "count_sigma"); (ascii "time_ms", dt); (ascii "length", dn); (ascii "sigma", ds); (ascii "file", F)] /\
  is_decimal dt time /\ is_decimal dn n /\ is_decimal ds sigma.
(** word -n s -k K -o F, then count_sigma -i F, prints this number *)
Theorem C125_word_then_count_sigma : forall time file_of us1 line1 s v k F w0 us2 line2 input,
  good word_options us1 line1 -> In (s, v) the_words -> makes_word us1 s k F -> good count_sigma_options us2 line2 -> uses_of us2 o_in = [[F]] -> unused us2 o_prefix ->
  word_like F -> k <= writes_up_to v ->
  exists p w t, word_program file_of line1 = Ran p /\ run p w0 = (w, Ok tt) /\ files w (file_of F) = Some t /\ described v k t /\ (sees file_of w input ->
    exists l, count_sigma_report time input line2 = Ran (Ok l) /\ count_sigma_line F time (length t) (sigma_size v k) l).
Proof.
  intros time file_of us1 line1 s v k F w0 us2 line2 input G1 HV (A & B & C) G2 D E HF HK.
  destruct (C125_sigma v k HK) as (t & ET & (L & ND & HL & LN)). pose proof (word_bytes v k t HK ET) as HB.
  destruct (C115_word file_of us1 line1 s v k F w0 G1 HV A B C (or_introl HK)) as (p & w & t' & E' & R & _ & W & ET' & DE).
  assert (t' = t) by congruence. subst t'.
  exists p, w, t. do 4 (split; [assumption|]). intros S.
  destruct (proj1 (C112_count_sigma time input line2) us2 G2) as (p' & i & Sp & Si & E2).
  rewrite (string_is _ _ _ _ Si D), (number_default _ _ _ _ Sp E), (S F _ W) in E2.
  destruct (C96_count_sigma time (Some F) t 0 t L) as (l & dt & dn & ds & EL & H1 & H2 & H3 & H4); auto.
  { split; [reflexivity|discriminate]. }
  { rewrite LN. destruct v; cbn [sigma_size]; try destruct (k =? 0); try destruct (k =? 1); try destruct (k =? 2); apply Nat.leb_le; reflexivity. }
  rewrite EL in E2. exists l. split; [exact E2|]. exists dt, dn, ds. rewrite <- LN. do 3 (split; [assumption|]). exact H4.
Qed.
Print Assumptions C125_word_then_count_sigma.
(** words, letters and count_sigma, executed *)
Definition has (w : str) (ls : list (nat * nat)) : bool := forallb (fun p => count_occ Nat.eq_dec w (fst p) =? snd p) ls.
Example C125_case :
  (exists w, fibonacci_word 6 = Ok w /\ has w [(97, 13); (98, 8)] = true /\ count_sigma w = Ok 2) /\ letters Fibonacci 6 = Some [(97, 13); (98, 8)] /\
  (exists w, tribonacci_word 5 = Ok w /\ has w [(97, 13); (98, 7); (99, 4)] = true /\ count_sigma w = Ok 3) /\ letters Tribonacci 5 = Some [(97, 13); (98, 7); (99, 4)] /\
  (exists w, period_doubling_word 5 = Ok w /\ has w [(97, 21); (98, 11)] = true /\ count_sigma w = Ok 2) /\ letters PeriodDoubling 5 = Some [(97, 21); (98, 11)] /\
  (exists w, paperfolding_word 4 = Ok w /\ has w [(49, 17); (48, 15)] = true /\ count_sigma w = Ok 2) /\ letters PaperFolding 4 = Some [(49, 17); (48, 15)] /\
  (exists w, quaternary_paperfolding_word 4 = Ok w /\ has w [(97, 3); (98, 5); (99, 4); (100, 4)] = true /\ count_sigma w = Ok 4) /\
     letters QuaternaryPaperFolding 4 = Some [(97, 3); (98, 5); (99, 4); (100, 4)] /\
  (exists w, power2_sequence 4 = Ok w /\ has w [(97, 11); (98, 4); (0, 1)] = true /\ count_sigma w = Ok 3) /\ letters Power2 4 = Some [(97, 11); (98, 4); (0, 1)] /\
  (exists w, vtm_word 3 = Ok w /\ has w [(97, 4); (98, 4); (99, 4)] = true /\ count_sigma w = Ok 3) /\ letters Vtm 3 = Some [(97, 4); (98, 4); (99, 4)] /\
  sigma_size Kolakoski 3 = 2 /\ sigma_size BinaryDeBrujin 3 = 2.
Proof. do 7 (split; [eexists; split; [vm_compute; reflexivity|]; split; vm_compute; reflexivity|split; [vm_compute; reflexivity|]]). split; reflexivity. Qed.
(** word -n thue-morse -k3 -o F; count_sigma -i F *)
Example C125_session_case : forall file_of time w0 input,
  let us1 := [(o_name, [ascii "thue-morse"]); (o_k, [ascii "3"]); (o_out, [ascii "F"])] in let us2 := [(o_in, [ascii "F"])] in
  good word_options us1 (ws ["-n"; "thue-morse"; "-k3"; "-o"; "F"]%string) /\ makes_word us1 (ascii "thue-morse") 3 (ascii "F") /\
  good count_sigma_options us2 (ws ["-i"; "F"]%string) /\ word_like (ascii "F") /\
  exists p w t, word_program file_of (ws ["-n"; "thue-morse"; "-k3"; "-o"; "F"]%string) = Ran p /\ run p w0 = (w, Ok tt) /\ files w (file_of (ascii "F")) = Some t /\
    described ThueMorse 3 t /\ (sees file_of w input -> exists l, count_sigma_report time input (ws ["-i"; "F"]%string) = Ran (Ok l) /\ count_sigma_line (ascii "F") time (length t) 2 l).
Proof.
  intros file_of time w0 input us1 us2. destruct (C115_case file_of 0 w0 (fun _ => [])) as (G1 & M1 & _). fold us1 in G1, M1. split; [exact G1|]. split; [exact M1|].
  assert (G2 : good count_sigma_options us2 (ws ["-i"; "F"]%string)).
  { split.
    - eexists. split; [|left; reflexivity].
      change (spelled count_sigma_options ([(o_in, [ascii "F"])] ++ []) (ws ["-i"; "F"]%string ++ [])).
      constructor; [apply (pc_short count_sigma_options [] [] o_in 105 [ascii "F"]); [constructor|find_in|reflexivity|reflexivity|]|constructor].
      split; [discriminate|]. split; [|reflexivity]. constructor; [intros (x & y & X); discriminate X|constructor].
    - split; [|split; [|split]].
      + constructor; [constructor; [exists (VStr (ascii "F")); constructor|constructor]|constructor].
      + apply Forall_forall. repeat (constructor; [right; apply Nat.leb_le; vm_compute; reflexivity|]). constructor.
      + repeat constructor; discriminate.
      + intros a Ha R. exfalso. revert a Ha R. apply (proj1 (Forall_forall (fun a => arg_required a = true -> False) count_sigma_options)). repeat (constructor; [intros R; discriminate R|]). constructor. }
  assert (WL : word_like (ascii "F")) by (split; [discriminate|split; intros [X|[]]; discriminate X]).
  split; [exact G2|]. split; [exact WL|].
  destruct (C125_word_then_count_sigma time file_of us1 _ (ascii "thue-morse") ThueMorse 3 (ascii "F") w0 us2 _ input G1 ltac:(find_in) M1 G2 ltac:(reflexivity) ltac:(reflexivity) WL ltac:(apply Nat.leb_le; reflexivity))
    as (p & w & t & E & R & W & D & H).
  exists p, w, t. do 4 (split; [assumption|]). exact H.
Qed.
