(** LetFam.v : how often each letter occurs in the words of src/word.rs (C125) *)
From Verif Require Import Base SpecStr SpecIo SpecWord LexFacts ModelWord WordProof WordProof2 WordProof3 WordProof4 FibFacts LynMorph LynFam LynFam5 RunFam.
From Coq Require Import NArith.

Lemma cnt_app u v c : cnt (u ++ v) c = cnt u c + cnt v c.
Proof. apply count_occ_app. Qed.
Lemma cnt_rep a n c : cnt (repeat a n) c = if a =? c then n else 0.
Proof. induction n as [|n IH]; [cbn; now destruct (a =? c)|]. cbn [repeat]. rewrite cnt_cons, IH. destruct (a =? c); lia. Qed.
Lemma cnt_in w c : 0 < cnt w c <-> In c w.
Proof. unfold cnt. symmetry. apply count_occ_In. Qed.

(** Fibonacci *)
Lemma fib_SS k : fib (S (S k)) = (fib (S k) + fib k)%N. Proof. reflexivity. Qed.
Lemma fw_cnt k : cnt (fib_word k) 97 = N.to_nat (fib (k + 1)) /\ cnt (fib_word k) 98 = N.to_nat (fib k).
Proof.
  enough (G : forall k, let P k := cnt (fib_word k) 97 = N.to_nat (fib (k + 1)) /\ cnt (fib_word k) 98 = N.to_nat (fib k) in P k /\ P (S k)) by apply (G k).
  clear k. intros k P. unfold P; clear P. induction k as [|k ((A1 & B1) & (A2 & B2))]; [split; split; reflexivity|]. split; [split; assumption|].
  rewrite F_SS, !cnt_app, A1, B1, A2, B2. replace (S (S k) + 1) with (S (S (k + 1))) by lia. rewrite !fib_SS. replace (S (k + 1)) with (S k + 1) by lia. lia.
Qed.
Lemma lfm_cnt w : Forall ab w -> cnt (flat_map fibonacci_lyndonfactor_morphism w) 97 = 2 * cnt w 97 + cnt w 98 /\ cnt (flat_map fibonacci_lyndonfactor_morphism w) 98 = cnt w 97 + cnt w 98.
Proof.
  induction 1 as [|c w C F (I1 & I2)]; [split; reflexivity|]. destruct C as [-> | ->].
  - change (flat_map fibonacci_lyndonfactor_morphism (97 :: w)) with (97 :: 97 :: 98 :: flat_map fibonacci_lyndonfactor_morphism w). rewrite !cnt_cons. cbn [Nat.eqb]. lia.
  - change (flat_map fibonacci_lyndonfactor_morphism (98 :: w)) with (97 :: 98 :: flat_map fibonacci_lyndonfactor_morphism w). rewrite !cnt_cons. cbn [Nat.eqb]. lia.
Qed.
Lemma lw_cnt k : cnt (lw k) 97 = N.to_nat (fib (2 * k + 2)) /\ cnt (lw k) 98 = N.to_nat (fib (2 * k + 1)).
Proof.
  induction k as [|k (A & B)]; [split; reflexivity|]. unfold lw. rewrite iter_S. fold (lw k). destruct (lfm_cnt (lw k) (lw_ab k)) as (-> & ->). rewrite A, B.
  replace (2 * S k + 2) with (S (S (S (2 * k + 1)))) by lia. replace (2 * S k + 1) with (S (S (2 * k + 1))) by lia. replace (2 * k + 2) with (S (2 * k + 1)) by lia. rewrite !fib_SS. lia.
Qed.
(** tribonacci *)
Definition tl_before (d k : nat) : nat := if k <? d then (if k + 1 =? d then 1 else 0) else N.to_nat (trib (k - d)).
Lemma tw_cnt k : cnt (trib_word k) 97 = tl_before 1 k /\ cnt (trib_word k) 98 = (if k =? 0 then 0 else tl_before 2 k) /\ cnt (trib_word k) 99 = (if k <=? 1 then 0 else tl_before 3 k).
Proof.
  enough (G : forall k, let P k := cnt (trib_word k) 97 = tl_before 1 k /\ cnt (trib_word k) 98 = (if k =? 0 then 0 else tl_before 2 k) /\ cnt (trib_word k) 99 = (if k <=? 1 then 0 else tl_before 3 k) in
    P k /\ P (S k) /\ P (S (S k)) /\ P (S (S (S k)))) by apply (G k).
  clear k. intros k P. unfold P; clear P. induction k as [|k (IH1 & IH2 & IH3 & IH4)]; [repeat split; vm_compute; reflexivity|].
  split; [exact IH2|]. split; [exact IH3|]. split; [exact IH4|]. rewrite trib_word_SSS, !cnt_app. destruct IH2 as (-> & -> & ->), IH3 as (-> & -> & ->), IH4 as (-> & -> & ->).
  destruct k as [|k]; [repeat split; vm_compute; reflexivity|]. destruct k as [|k]; [repeat split; vm_compute; reflexivity|].
  unfold tl_before. cbn [Nat.eqb Nat.leb Nat.ltb]. rewrite !Nat.sub_succ, ?Nat.sub_0_r.
  change (S (S (S (S (S (S k))))) <? 1) with false. rewrite (trib_S3 (S (S k))), (trib_S3 (S k)), (trib_S3 k). lia.
Qed.
(** Thue-Morse *)
Lemma tm_cnt1 w : Forall ab w -> cnt (flat_map thuemorse_morphism w) 97 = length w /\ cnt (flat_map thuemorse_morphism w) 98 = length w.
Proof.
  induction 1 as [|c w C F (I1 & I2)]; [split; reflexivity|]. destruct C as [-> | ->].
  - change (flat_map thuemorse_morphism (97 :: w)) with (97 :: 98 :: flat_map thuemorse_morphism w). rewrite !cnt_cons. cbn [Nat.eqb length]. lia.
  - change (flat_map thuemorse_morphism (98 :: w)) with (98 :: 97 :: flat_map thuemorse_morphism w). rewrite !cnt_cons. cbn [Nat.eqb length]. lia.
Qed.
Lemma tm_cnt k : let w := iter_morphism thuemorse_morphism (S k) [97] in cnt w 97 = 2 ^ k /\ cnt w 98 = 2 ^ k.
Proof.
  cbv zeta. rewrite iter_S. destruct (tm_cnt1 (iter_morphism thuemorse_morphism k [97])) as (-> & ->); [apply ab_iter; [apply tmm_ab|repeat constructor; unfold ab; tauto]|].
  rewrite (u2_iter_length _ _ _ tmh_u2). split; reflexivity.
Qed.
(** every binary word: the two counts add up *)
Lemma ab_len w : Forall ab w -> cnt w 97 + cnt w 98 = length w.
Proof. induction 1 as [|c w [-> | ->] F IH]; [reflexivity| |]; rewrite !cnt_cons; cbn [Nat.eqb length]; lia. Qed.
(** paperfolding *)
Lemma pfh_cnt w : Forall quat w -> Forall quat (flat_map pfh w) /\ cnt (flat_map pfh w) 97 = cnt w 97 + cnt w 99 /\ cnt (flat_map pfh w) 98 = cnt w 100 + cnt w 98 /\
  cnt (flat_map pfh w) 99 = cnt w 98 + cnt w 97 /\ cnt (flat_map pfh w) 100 = cnt w 100 + cnt w 99 /\
  cnt (flat_map pfe w) 49 = 2 * cnt w 100 + cnt w 98 + cnt w 99 /\ cnt (flat_map pfe w) 48 = 2 * cnt w 97 + cnt w 98 + cnt w 99.
Proof.
  induction 1 as [|c w C F (I0 & I1 & I2 & I3 & I4 & I5 & I6)]; [repeat split; constructor|]. destruct C as [-> |[-> |[-> | ->]]].
  - change (flat_map pfh (97 :: w)) with (99 :: 97 :: flat_map pfh w). change (flat_map pfe (97 :: w)) with (48 :: 48 :: flat_map pfe w).
    split; [repeat (apply Forall_cons; [unfold quat; tauto|]); exact I0|]. rewrite !cnt_cons. cbn [Nat.eqb]. lia.
  - change (flat_map pfh (98 :: w)) with (99 :: 98 :: flat_map pfh w). change (flat_map pfe (98 :: w)) with (48 :: 49 :: flat_map pfe w).
    split; [repeat (apply Forall_cons; [unfold quat; tauto|]); exact I0|]. rewrite !cnt_cons. cbn [Nat.eqb]. lia.
  - change (flat_map pfh (99 :: w)) with (100 :: 97 :: flat_map pfh w). change (flat_map pfe (99 :: w)) with (49 :: 48 :: flat_map pfe w).
    split; [repeat (apply Forall_cons; [unfold quat; tauto|]); exact I0|]. rewrite !cnt_cons. cbn [Nat.eqb]. lia.
  - change (flat_map pfh (100 :: w)) with (100 :: 98 :: flat_map pfh w). change (flat_map pfe (100 :: w)) with (49 :: 49 :: flat_map pfe w).
    split; [repeat (apply Forall_cons; [unfold quat; tauto|]); exact I0|]. rewrite !cnt_cons. cbn [Nat.eqb]. lia.
Qed.
Lemma q_cnt k : let w := iter_morphism pfh (S (S k)) [100] in cnt w 97 = 2 ^ k - 1 /\ cnt w 98 = 2 ^ k + 1 /\ cnt w 99 = 2 ^ k /\ cnt w 100 = 2 ^ k.
Proof.
  induction k as [|k IH]; [cbv zeta; repeat split; vm_compute; reflexivity|]. cbv zeta in *. rewrite iter_S.
  destruct (pfh_cnt (iter_morphism pfh (S (S k)) [100]) (pf_iter_quat _)) as (_ & A & B & C & D & _). rewrite A, B, C, D. destruct IH as (-> & -> & -> & ->).
  pose proof (LynFam5.pow_pos k). cbn [Nat.pow]. lia.
Qed.
Lemma p_cnt k : let w := flat_map pfe (iter_morphism pfh k [100]) in cnt w 49 = 2 ^ k + 1 /\ cnt w 48 = 2 ^ k - 1.
Proof.
  cbv zeta. destruct k as [|[|k]]; [split; vm_compute; reflexivity|split; vm_compute; reflexivity|].
  destruct (pfh_cnt (iter_morphism pfh (S (S k)) [100]) (pf_iter_quat _)) as (_ & _ & _ & _ & _ & -> & ->). destruct (q_cnt k) as (-> & -> & -> & ->).
  pose proof (LynFam5.pow_pos k). cbn [Nat.pow]. lia.
Qed.
(** power2 *)
Lemma V_cnt n : cnt (V n) 98 = n + 1 /\ cnt (V n) 97 + n + 1 = 2 ^ n /\ cnt (V n) 0 = 0.
Proof.
  induction n as [|n (A & B & C)]; [repeat split; vm_compute; reflexivity|]. rewrite V_S, !cnt_app, A, C. unfold blk. rewrite !cnt_app, !cnt_rep.
  change (cnt [98] 98) with 1. change (cnt [98] 97) with 0. change (cnt [98] 0) with 0. cbn [Nat.eqb]. pose proof (LynFam5.pow_pos n). cbn [Nat.pow]. lia.
Qed.
Lemma p2_cnt k : 1 <= k -> let w := V (k - 1) ++ repeat 97 (2 ^ (k - 1) - 1) ++ [0] in cnt w 98 = k /\ cnt w 97 = 2 ^ k - k - 1 /\ cnt w 0 = 1.
Proof.
  intros H. cbv zeta. destruct k as [|k]; [lia|]. replace (S k - 1) with k by lia. rewrite !cnt_app, !cnt_rep. destruct (V_cnt k) as (-> & B & ->).
  change (cnt [0] 98) with 0. change (cnt [0] 97) with 0. change (cnt [0] 0) with 1. cbn [Nat.eqb]. pose proof (LynFam5.pow_pos k). cbn [Nat.pow]. lia.
Qed.
Lemma v_cnt k : let w := iter_morphism vtm_morphism (S k) [97] in Forall abc3 w /\ cnt w 97 = 2 ^ k /\ cnt w 98 = 2 ^ k /\ cnt w 99 = 2 ^ k.
Proof.
  change vtm_morphism with vm. cbv zeta. induction k as [|k (F & A & B & C)].
  - split; [|split; [|split]; reflexivity]. change (iter_morphism vm 1 [97]) with [97; 98; 99]. repeat (apply Forall_cons; [unfold abc3; tauto|]). constructor.
  - rewrite iter_S. destruct (vm_counts _ F) as (F' & A' & B' & C' & _). rewrite A', B', C', A, B, C. cbn [Nat.pow]. split; [exact F'|]. lia.
Qed.
