(** PropsPerFam.v : property theorems C126, the smallest period and the longest border of the words of src/word.rs, as border_array and smallest_period
    compute them, and that the words are primitive (src/core.rs: border_array, smallest_period, is_primitive; src/bin/word.rs). *)
From Verif Require Import Base SpecStr SpecIo SpecMain SpecWord LexFacts BorderProof.
From Verif Require Import ModelWord ModelCore ModelMain.
From Verif Require Import WordProof WordProof2 WordProof3 WordProof4 FibFacts LynFam LynFam5 RunFam LetFam PerFam PropsWord PropsWord2 PropsArrays PropsLynFam.
From Coq Require Import NArith.

(** the closed forms *)
Definition period_size (v : word_name) (k : nat) : option nat :=
  if k <=? writes_up_to v then
    match v with
    | Fibonacci => Some (if k <? 2 then k + 1 else N.to_nat (fib (k + 1)))
    | FibonacciLyndonFactor => Some (N.to_nat (fib (2 * k + 3)))
    | Tribonacci => Some (N.to_nat (trib (if k <? 3 then k else k - 1)))
    | ThueMorse | PeriodDoubling => Some (if k <? 2 then 2 ^ k else 3 * 2 ^ (k - 2))
    | PaperFolding => Some (2 ^ (k + 1) - 1)
    | QuaternaryPaperFolding | Power2 => Some (2 ^ k)
    | Vtm => Some (if k =? 0 then 1 else 3 * 2 ^ (k - 1))
    | Kolakoski | BinaryDeBrujin => None
    end
  else None.
Lemma fw_len k : length (fib_word k) = N.to_nat (fib (k + 2)).
Proof. rewrite <- fib_word_length. lia. Qed.
Lemma tw_len k : length (trib_word k) = N.to_nat (trib k).
Proof. rewrite <- trib_word_length. lia. Qed.
Lemma some_nat (a b : nat) : Some a = Some b -> b = a. Proof. congruence. Qed.
Lemma period_size_least v k p : period_size v k = Some p -> exists w, word_main v k = Ok w /\ w <> [] /\ least_period w p.
Proof.
  intros H. unfold period_size in H. destruct (Nat.leb_spec k (writes_up_to v)) as [B|B]; [|discriminate H].
  enough (G : exists w, word_main v k = Ok w /\ least_period w p).
  { destruct G as (w & E & G). exists w. split; [exact E|]. split; [|exact G]. intros ->. destruct G as ((G & _) & _). cbn [length] in G. lia. }
  destruct v; try discriminate H; apply some_nat in H; cbn [word_main writes_up_to] in *; subst p.
  - exists (fib_word k). split; [now apply fibonacci_word_ok|]. destruct (Nat.ltb_spec k 2) as [C|C].
    + destruct k as [|[|k]]; [| |lia]; apply least_compute; vm_compute; reflexivity.
    + replace (k + 1) with (k - 1 + 2) by lia. rewrite <- fw_len. now apply fib_least.
  - exists (lw k). split; [now apply fibonacci_lyndonfactor_ok|]. replace (2 * k + 3) with (2 * k + 1 + 2) by lia. rewrite <- fw_len. change (fib_word (2 * k + 1)) with (F (2 * k + 1)). rewrite <- lw_len.
    apply lyndon_least, lw_lyndon.
  - exists (trib_word k). split; [now apply trib_writes|]. destruct (Nat.ltb_spec k 3) as [C|C].
    + destruct k as [|[|[|k]]]; [| | |lia]; apply least_compute; vm_compute; reflexivity.
    + rewrite <- tw_len. now apply trib_least.
  - destruct (C44_thuemorse_word k ltac:(lia)) as (w & E & _ & _ & Ew). exists w. split; [exact E|]. rewrite Ew. change tm_image with thuemorse_morphism. destruct (Nat.ltb_spec k 2) as [C|C].
    + destruct k as [|[|k]]; [| |lia]; apply least_compute; vm_compute; reflexivity.
    + replace k with (S (S (k - 2))) at 1 by lia. apply tm_least.
  - exists (iter_morphism period_doubling_morphism k [97]). split; [apply period_doubling_word_ok; lia|]. destruct (Nat.ltb_spec k 2) as [C|C].
    + destruct k as [|[|k]]; [| |lia]; apply least_compute; vm_compute; reflexivity.
    + replace k with (S (S (k - 2))) at 1 by lia. apply pd_least.
  - exists (flat_map pfe (iter_morphism pfh k [100])). split; [apply paperfolding_ok; lia|]. replace (2 ^ (k + 1)) with (2 * 2 ^ k) by (rewrite Nat.add_1_r; cbn [Nat.pow]; lia). apply pf_least.
  - exists (iter_morphism pfh k [100]). split; [apply quaternary_ok; lia|]. apply q_least.
  - destruct (power2_ok k ltac:(lia)) as (w & EW & L & Z & AB & _). exists w. split; [exact EW|]. pose proof (LynFam5.pow_pos k) as P0. rewrite <- L in *.
    apply last_only; [intros ->; cbn [length] in P0; lia|]. intros i Hi. rewrite (nth_indep _ 0 1) by lia. rewrite (nth_indep w 0 1 (n := length w - 1)) by lia. rewrite Z.
    specialize (AB (i + 1) ltac:(lia)). replace (i + 1 - 1) with i in AB by lia. rewrite (nth_indep w 0 1) in AB by lia. destruct AB as [-> | ->]; discriminate.
  - exists (iter_morphism vtm_morphism k [97]). split; [now apply vtm_word_ok|]. assert (L : (if k =? 0 then 1 else 3 * 2 ^ (k - 1)) = length (iter_morphism vtm_morphism k [97])).
    { destruct k as [|k]; [reflexivity|]. rewrite vm_len. cbn [Nat.eqb]. now rewrite Nat.sub_succ, Nat.sub_0_r. }
    rewrite L. apply lyndon_least, vtm_lyndon; reflexivity.
Qed.
(** border_array and smallest_period find it; its complement is the length of the longest border *)
Theorem C126_smallest_period : forall v k p, period_size v k = Some p -> exists w B, word_main v k = Ok w /\
  is_period w p /\ (forall q, is_period w q -> p <= q) /\
  border_array w = Ok B /\ smallest_period B = Ok p /\ nth (length w) B 0 = length w - p.
Proof.
  intros v k p H. destruct (period_size_least v k p H) as (w & E & N & P & M). destruct (C06_smallest_period w N) as (B & p' & EB & SB & PB & MB).
  assert (p' = p) as -> by (apply Nat.le_antisymm; [now apply MB|now apply M]).
  exists w, B. repeat (split; [assumption|]).
  destruct (border_array_correct w) as (B2 & EB2 & LB & _ & BB). rewrite EB in EB2. injection EB2 as <-. destruct P as (P & _). destruct (BB (length w) ltac:(lia)) as ((X & _) & _).
  rewrite firstn_all in X. unfold smallest_period in SB. rewrite sub_ok in SB by lia. cbn [bind] in SB. rewrite (get_ok _ _ 0) in SB by lia. cbn [bind] in SB.
  replace (length B - 1) with (length w) in SB by lia. rewrite sub_ok in SB by lia. injection SB as SB. lia.
Qed.
Print Assumptions C126_smallest_period.
(** the words are primitive, but for the first paperfolding word, which is 11 *)
Theorem C126_is_primitive : forall v k p, period_size v k = Some p -> exists w, word_main v k = Ok w /\
  is_primitive w = Ok (negb (match v with PaperFolding => k =? 0 | _ => false end)).
Proof.
  intros v k p H. destruct (period_size_least v k p H) as (w & E & N & L). exists w. split; [exact E|].
  assert (G : primitive w -> is_primitive w = Ok true).
  { intros P. destruct (C07_is_primitive_decides w N) as (b & Eb & Hb). rewrite Eb. f_equal. now apply Hb. }
  unfold period_size in H. destruct (Nat.leb_spec k (writes_up_to v)) as [B|B]; [|discriminate H].
  destruct v; try discriminate H; apply some_nat in H; cbn [word_main writes_up_to negb] in *.
  - apply G. rewrite fibonacci_word_ok in E by lia. injection E as <-. apply fw_primitive.
  - apply G. rewrite fibonacci_lyndonfactor_ok in E by lia. injection E as <-. apply (least_primitive _ p L). destruct L as ((L & _) & _). pose proof (lw_len k) as Q. change (F (2 * k + 1)) with (fib_word (2 * k + 1)) in Q.
    rewrite fw_len in Q. replace (2 * k + 1 + 2) with (2 * k + 3) in Q by lia. lia.
  - apply G. rewrite trib_writes in E by lia. injection E as <-. apply tw_primitive.
  - apply G. destruct (C44_thuemorse_word k ltac:(lia)) as (w' & E' & Lw & _ & _). rewrite E in E'. injection E' as <-. apply (least_primitive _ p L). rewrite Lw. destruct (Nat.ltb_spec k 2) as [C|C].
    + destruct k as [|[|k]]; [| |lia]; cbn in *; lia.
    + pose proof (LynFam5.pow_pos (k - 2)) as P0. replace k with (S (S (k - 2))) at 1 by lia. cbn [Nat.pow]. lia.
  - apply G. rewrite period_doubling_word_ok in E by lia. injection E as <-. apply (least_primitive _ p L). rewrite (u2_iter_length _ _ _ pdh_u2). destruct (Nat.ltb_spec k 2) as [C|C].
    + destruct k as [|[|k]]; [| |lia]; cbn in *; lia.
    + pose proof (LynFam5.pow_pos (k - 2)) as P0. replace k with (S (S (k - 2))) at 1 by lia. cbn [Nat.pow]. lia.
  - rewrite paperfolding_ok in E by lia. injection E as <-. destruct k as [|k]; [vm_compute; reflexivity|]. cbn [Nat.eqb negb]. apply G. apply (least_primitive _ p L).
    rewrite (u2_length _ _ pfe_u2), (u2_iter_length _ _ _ pfh_u2). pose proof (LynFam5.pow_pos k) as P0. rewrite Nat.add_1_r in H. cbn [Nat.pow] in *. lia.
  - apply G. rewrite quaternary_ok in E by lia. injection E as <-. apply (least_primitive _ p L). rewrite (u2_iter_length _ _ _ pfh_u2). pose proof (LynFam5.pow_pos k) as P0. lia.
  - apply G. destruct (power2_ok k ltac:(lia)) as (w' & E' & Lw & _). rewrite E in E'. injection E' as <-. apply (least_primitive _ p L). pose proof (LynFam5.pow_pos k) as P0. lia.
  - apply G. rewrite vtm_word_ok in E by lia. injection E as <-. apply (least_primitive _ p L). destruct k as [|k]; [cbn in *; lia|]. rewrite vm_len. cbn [Nat.eqb] in H. rewrite Nat.sub_succ, Nat.sub_0_r in H. pose proof (LynFam5.pow_pos k) as P0. lia.
Qed.
Print Assumptions C126_is_primitive.
Example C126_case : period_size Fibonacci 5 = Some 8 /\ word_main Fibonacci 5 = Ok [97;98;97;97;98;97;98;97;97;98;97;97;98] /\
  (B <- border_array [97;98;97;97;98;97;98;97;97;98;97;97;98] ;; smallest_period B) = Ok 8 /\ period_size ThueMorse 3 = Some 6 /\ period_size PaperFolding 2 = Some 7.
Proof. vm_compute. repeat split. Qed.
