(** FloatProof7.v : entropy_via_kmer_counting in binary64: error bound. *)
From Verif Require Import Base SpecStr SpecIo SpecEntropy SpecLog LexFacts PermFacts ModelIo ModelCore ModelEntropy EntropyProof EntropyProof2 EntropyProof3 ModelFloat FloatFacts FloatProof FloatProof2 FloatProof3 FloatProof4 FloatProof5 FloatProof6.
From Coq Require Import NArith ZArith Reals Lra.
From Flocq Require Import Core BinarySingleNaN Plus_error Relative.
Close Scope nat_scope. Open Scope R_scope.

Lemma clg_nonneg c : (1 <= c)%nat -> 0 <= clg c.
Proof. intros H. unfold clg. apply Rmult_le_pos; [apply pos_INR|]. apply lg_nonneg. now apply INR_ge1. Qed.
Lemma lg_mono x y : 0 < x -> x <= y -> lg x <= lg y.
Proof.
  intros Hx Hxy. unfold lg. apply Rmult_le_compat_r; [left; apply Rinv_0_lt_compat; pose proof ln2_half; lra|].
  destruct (Req_dec x y) as [->|N]; [lra|]. left. apply ln_increasing; lra.
Qed.
Lemma clg_sum_bound l n : Forall (fun c => (1 <= c)%nat) l -> (list_sum l <= n)%nat -> (1 <= n)%nat ->
  0 <= sumR (map clg l) <= INR n * lg (INR n).
Proof.
  intros F HS Hn. pose proof (INR_ge1 n Hn) as N1. pose proof (lg_nonneg (INR n) N1) as G. split.
  - apply sum_nonneg. eapply Forall_impl; [|exact F]. intros c Hc. now apply clg_nonneg.
  - apply Rle_trans with (lg (INR n) * INR (list_sum l)); [|rewrite Rmult_comm; apply Rmult_le_compat_r; [exact G|now apply le_INR]].
    rewrite INR_list_sum, <- sumR_scal. apply sum_le. apply Forall_forall. intros c Hc. rewrite Forall_forall in F. specialize (F c Hc). unfold clg. rewrite Rmult_comm.
    apply Rmult_le_compat_r; [apply pos_INR|]. pose proof (INR_ge1 c F). apply lg_mono; [lra|]. apply le_INR. etransitivity; [|exact HS].
    clear - Hc. induction l as [|d l IH]; [easy|]. unfold list_sum in *. cbn [fold_right]. destruct Hc as [->|Hc]; [lia|]. specialize (IH Hc). lia.
Qed.
(** (1-d)(1-u)^M + (1+d)(1+u)^M >= 2 *)
Lemma pow_two delta M : 0 <= delta <= / 2 -> 2 <= (1 - delta) * (1 - uu) ^ M + (1 + delta) * (1 + uu) ^ M.
Proof.
  intros Hd. pose proof uu_pos as U0. pose proof uu_small as U1.
  assert (G : 2 <= (1 - delta) * (1 - uu) ^ M + (1 + delta) * (1 + uu) ^ M /\ (1 - delta) * (1 - uu) ^ M <= (1 + delta) * (1 + uu) ^ M); [|apply G].
  induction M as [|M (I1 & I2)]; [simpl; lra|]. cbn [pow].
  replace ((1 - delta) * ((1 - uu) * (1 - uu) ^ M)) with ((1 - uu) * ((1 - delta) * (1 - uu) ^ M)) by ring.
  replace ((1 + delta) * ((1 + uu) * (1 + uu) ^ M)) with ((1 + uu) * ((1 + delta) * (1 + uu) ^ M)) by ring.
  assert (0 <= (1 - delta) * (1 - uu) ^ M) by (pose proof (pow0_le1 M); apply Rmult_le_pos; lra).
  revert I1 I2 H. generalize ((1 - delta) * (1 - uu) ^ M) ((1 + delta) * (1 + uu) ^ M). intros p q I1 I2 H. split; nra.
Qed.
(** distance of two different floats that are not tiny *)
Lemma ulp_b54 : ulp radix2 (SpecFloat.fexp 53 1024) b54 = b106.
Proof. unfold b54, b106. rewrite ulp_bpow. unfold SpecFloat.fexp, SpecFloat.emin. f_equal. Qed.
Lemma float_gap (x y : b64) : nz b54 (B2R x) -> nz b54 (B2R y) -> B2R x < B2R y -> b106 <= B2R y - B2R x.
Proof.
  intros NX NY L. pose proof (generic_format_B2R 53 1024 x) as FX. pose proof (generic_format_B2R 53 1024 y) as FY.
  assert (BB : b106 <= b54) by (apply bpow_le; lia).
  destruct NX as [EX|NX].
  - rewrite EX in *. destruct NY as [EY|NY]; lra.
  - pose proof (succ_le_lt radix2 (SpecFloat.fexp 53 1024) _ _ FX FY L) as SL.
    rewrite succ_eq_pos in SL by (apply Rle_trans with b54; [left; apply bpow_gt_0|exact NX]).
    pose proof (ulp_le radix2 (SpecFloat.fexp 53 1024) b54 (B2R x)) as UL. rewrite ulp_b54 in UL.
    assert (b106 <= ulp radix2 (SpecFloat.fexp 53 1024) (B2R x)); [|lra]. apply UL.
    rewrite (Rabs_pos_eq b54) by (left; apply bpow_gt_0). rewrite Rabs_pos_eq; [exact NX|]. apply Rle_trans with b54; [left; apply bpow_gt_0|exact NX].
Qed.
Section KMER.
Context (l2 : b64 -> b64) (delta : R) (HL : log2_accurate l2 delta) (Hd : 0 <= delta <= / 2).
Notation A := (ieee l2).
Definition ct (c : nat) : b64 := a_mul A (a_of A c) (a_log2 A (a_of A c)).
Lemma ct_ok c : (1 <= c)%nat -> small c -> appr 0 b54 ((1 - delta) * (1 - uu)) ((1 + delta) * (1 + uu)) (ct c) (clg c) 0.
Proof.
  intros Hc Hs. pose proof uu_pos as U0. pose proof uu_small as U1. pose proof (INR_ge1 c Hc) as C1. pose proof (small_INR c Hs) as C2.
  destruct (op_of l2 c ltac:(unfold small in Hs; lia)) as (OF & OV).
  assert (S5 : step52 <= 1) by (unfold step52; change 1 with (bpow radix2 0); apply bpow_le; lia).
  destruct (log_ok l2 delta HL Hd (a_of A c) OF) as (LF & LN & LB & LE).
  - rewrite OV. exact C1.
  - rewrite OV. eapply Rle_trans; [exact C2|]. apply bpow_le. lia.
  - rewrite OV. destruct (Nat.eq_dec c 1) as [->|N]; [left; reflexivity|]. right. assert (2 <= INR c) by (change 2 with (INR 2); apply le_INR; lia). lra.
  - rewrite OV in *. set (L := a_log2 A (a_of A c)) in *. change (l2 (a_of A c)) with L in *.
    pose proof (lg_nonneg (INR c) C1) as G.
    assert (LA : appr 0 b54 (1 - delta) (1 + delta) L (lg (INR c)) 0).
    { repeat split; auto; try lra; apply LB. }
    assert (Bp : 0 <= b54) by (left; apply bpow_gt_0).
    assert (BB : INR c * B2R L <= big).
    { apply Rle_trans with (bpow radix2 52 * bpow radix2 63); [apply Rmult_le_compat; [lra|apply LB|exact C2|apply LB]|]. rewrite <- bpow_plus. apply bpow_le. lia. }
    pose proof (appr_mul l2 0 b54 (1 - delta) (1 + delta) _ _ _ c ltac:(lra) ltac:(lra) (Rle_refl 0) Bp tiny_b54 format_b54 LA Hc Hs BB) as M.
    rewrite Rmult_0_r in M. exact M.
Qed.
Lemma b200 : bpow radix2 200 = bpow radix2 52 * bpow radix2 148. Proof. rewrite <- bpow_plus. reflexivity. Qed.
Lemma fold_ok l n : Forall (fun c => (1 <= c)%nat) l -> (list_sum l <= n)%nat -> (length l <= n)%nat -> (1 <= n)%nat -> small n ->
  let x := log_fold A l in fin x /\ nz b54 (B2R x) /\ 0 <= B2R x <= bpow radix2 200 /\
    Rabs (B2R x - sumR (map clg l)) <= ((1 + delta) * (1 + uu) ^ S n - 1) * sumR (map clg l).
Proof.
  intros F HS Hm Hn Hs. cbv zeta. pose proof uu_pos as U0. pose proof uu_small as U1. pose proof (INR_ge1 n Hn) as N1. pose proof (small_INR n Hs) as N2.
  destruct (clg_sum_bound l n F HS Hn) as (S0 & S1). set (Sg := sumR (map clg l)) in *.
  assert (SB : Sg <= bpow radix2 52 * bpow radix2 53).
  { eapply Rle_trans; [exact S1|]. pose proof (lg_upper (INR n) N1). pose proof (lg_nonneg (INR n) N1). apply Rmult_le_compat; [lra|exact H0|exact N2|].
    replace (bpow radix2 53) with (2 * bpow radix2 52) by (change 2 with (bpow radix2 1); rewrite <- bpow_plus; reflexivity). lra. }
  assert (P9 : (1 + uu) ^ S (length l) <= 9) by (apply pow1_bound; unfold small in Hs; lia).
  assert (HI : (1 + delta) * (1 + uu) * (1 + uu) ^ length l <= 18).
  { rewrite Rmult_assoc. change ((1 + uu) * (1 + uu) ^ length l) with ((1 + uu) ^ S (length l)). pose proof (pow1_ge1 (S (length l))). nra. }
  assert (L0 : 0 <= (1 - delta) * (1 - uu)) by nra. assert (L1 : 0 <= (1 + delta) * (1 + uu)) by nra.
  assert (B18 : 18 * Sg <= bpow radix2 200).
  { apply Rle_trans with (bpow radix2 5 * (bpow radix2 52 * bpow radix2 53)); [|rewrite <- !bpow_plus; apply bpow_le; lia].
    assert (18 <= bpow radix2 5) by (simpl; lra). nra. }
  assert (FT : Forall (fun c => appr 0 b54 ((1 - delta) * (1 - uu)) ((1 + delta) * (1 + uu)) (ct c) (clg c) ((fun _ => 0) c)) l).
  { apply Forall_forall. intros c Hc. apply ct_ok; [rewrite Forall_forall in F; now apply F|]. apply (small_le _ n); [|exact Hs]. etransitivity; [|exact HS].
    clear - Hc. induction l as [|d l IH]; [easy|]. unfold list_sum in *. cbn [fold_right]. destruct Hc as [->|Hc]; [lia|]. specialize (IH Hc). lia. }
  assert (BG : (1 + delta) * (1 + uu) * (1 + uu) ^ (0 + length l) * (0 + sumR (map clg l) + 0 * (0 + sumR (map (fun _ => 0) l))) <= big).
  { fold Sg. rewrite Rmult_0_l, Rplus_0_r, Rplus_0_l, Nat.add_0_l. apply Rle_trans with (18 * Sg); [apply Rmult_le_compat_r; assumption|].
    eapply Rle_trans; [exact B18|apply bpow_le; lia]. }
  assert (Z0 : appr 0 b54 ((1 - delta) * (1 - uu) * (1 - uu) ^ 0) ((1 + delta) * (1 + uu) * (1 + uu) ^ 0) (a_zero A) 0 0) by apply appr_zero.
  pose proof (appr_sum l2 ((1 - delta) * (1 - uu)) ((1 + delta) * (1 + uu)) 0 b54 L0 L1 (Rle_refl 0) tiny_b54 format_b54 ct clg (fun _ => 0) l FT 0%nat (a_zero A) 0 0 Z0 BG) as SS.
  fold Sg in SS. rewrite Nat.add_0_l in SS. change (fold_left (fun s p => a_add A s (ct p)) l (a_zero A)) with (log_fold A l) in SS.
  destruct SS as (D1 & D2 & D3 & _ & _ & D4 & D5). rewrite Rmult_0_l, Rplus_0_l, ?Rplus_0_r in D5. rewrite Rmult_0_l, Rplus_0_l, Rminus_0_r in D4.
  split; [exact D1|]. split; [exact D3|]. split; [split; [exact D2|]|].
  - eapply Rle_trans; [exact D5|]. apply Rle_trans with (18 * Sg); [apply Rmult_le_compat_r; assumption|exact B18].
  - assert (EL : (1 - delta) * (1 - uu) * (1 - uu) ^ length l = (1 - delta) * (1 - uu) ^ S (length l)) by (cbn [pow]; ring).
    assert (EH : (1 + delta) * (1 + uu) * (1 + uu) ^ length l = (1 + delta) * (1 + uu) ^ S (length l)) by (cbn [pow]; ring).
    rewrite EL in D4. rewrite EH in D5. clear - D4 D5 Hd Hm S0 U0 U1.
    pose proof (pow_two delta (S (length l)) Hd) as PT. pose proof (pow1_le (S (length l)) (S n) ltac:(lia)) as PL.
    assert (Q : (1 + delta) * (1 + uu) ^ S (length l) <= (1 + delta) * (1 + uu) ^ S n) by (apply Rmult_le_compat_l; lra).
    revert D4 D5 PT Q. generalize ((1 - delta) * (1 - uu) ^ S (length l)) ((1 + delta) * (1 + uu) ^ S (length l)) ((1 + delta) * (1 + uu) ^ S n).
    intros p q r D4 D5 PT Q. apply Rabs_le. split; nra.
Qed.
Lemma sub_rel (x y : b64) : fin x -> fin y -> Rabs (B2R x - B2R y) <= big ->
  fin (a_sub A x y) /\ exists e, Rabs e <= uu /\ B2R (a_sub A x y) = (B2R x - B2R y) * (1 + e).
Proof.
  intros Fx Fy HBg. destruct (op_sub l2 x y Fx Fy HBg) as (F & E). split; [exact F|].
  assert (FF : generic_format radix2 (FLT_exp (-1074) 53) (- B2R y)) by (rewrite <- fexp_FLT; apply generic_format_opp, generic_format_B2R).
  assert (FX : generic_format radix2 (FLT_exp (-1074) 53) (B2R x)) by (rewrite <- fexp_FLT; apply generic_format_B2R).
  destruct (FLT_plus_error_N_ex radix2 (-1074) 53 (fun x => negb (Z.even x)) (B2R x) (- B2R y) FX FF) as (e & E1 & E2). exists e. split.
  - eapply Rle_trans; [exact E1|]. assert (UR : u_ro radix2 53 = uu) by (unfold u_ro, uu; change (/ 2) with (bpow radix2 (-1)); rewrite <- bpow_plus; reflexivity).
    rewrite UR. pose proof uu_pos. apply Rmult_le_reg_r with (1 + uu); [lra|]. unfold Rdiv. rewrite Rmult_assoc, Rinv_l by lra. nra.
  - rewrite E. unfold rnd, Rminus. rewrite fexp_FLT. exact E2.
Qed.
Lemma kmer_float it1 it2 s k W : (forall m, Permutation (it1 m) m) -> (forall m, Permutation (it2 m) m) ->
  bytes s -> Forall (fun x => x <> 0%nat) s -> (1 <= k <= 7)%nat -> (k <= length s + 1)%nat -> contexts (s ++ [0%nat]) k W -> small (length s + 1) ->
  forall K, K = (length s + 4)%nat ->
  exists x, entropy_via_kmer_counting_a A it1 it2 (s ++ [0%nat]) k = Ok (x, (length s + 1)%nat) /\ fin x /\
    Rabs (B2R x - Hk (s ++ [0%nat]) W) <= 2 * ((1 + delta) * (1 + uu) ^ K - 1) * lg (INR (length s + 1)).
Proof.
  intros P1 P2 HB Hz Hk Hkl HW Hs K HK. set (t := s ++ [0%nat]). assert (Lt : length t = (length s + 1)%nat) by (unfold t; rewrite app_length; reflexivity).
  assert (BT : bytes t) by (apply (t_bytes s k HB ltac:(lia))).
  destruct (kmer_a_ok A it1 it2 t k BT Hk ltac:(lia) P1 P2) as (m1 & m2 & E & (A1 & A2 & A3 & A4) & (B1 & B2 & B3 & B4)). 
  pose proof (counts_entropy s k Hz ltac:(lia) W HW ltac:(fold t; lia)) as CE. fold t in CE. rewrite <- A4, <- B4 in CE. rewrite <- CE.
  rewrite Lt in *. set (n := (length s + 1)%nat) in *.
  eexists. split; [exact E|]. clear E CE.
  pose proof uu_pos as U0. pose proof uu_small as U1. assert (Hn : (1 <= n)%nat) by lia. pose proof (INR_ge1 n Hn) as N1. pose proof (small_INR n Hs) as N2.
  destruct (fold_ok m1 n A3 ltac:(lia) ltac:(lia) Hn Hs) as (F1 & Z1 & Y1 & X1).
  destruct (fold_ok m2 n B3 ltac:(lia) ltac:(lia) Hn Hs) as (F2 & Z2 & Y2 & X2).
  destruct (clg_sum_bound m1 n A3 ltac:(lia) Hn) as (S1 & T1). destruct (clg_sum_bound m2 n B3 ltac:(lia) Hn) as (S2 & T2).
  revert F1 Z1 Y1 X1 F2 Z2 Y2 X2 S1 T1 S2 T2. generalize (sumR (map clg m1)) (sumR (map clg m2)) (log_fold A m1) (log_fold A m2). intros s1 s2 x1 x2 F1 Z1 Y1 X1 F2 Z2 Y2 X2 S1 T1 S2 T2.
  assert (B201 : Rabs (B2R x1 - B2R x2) <= bpow radix2 200) by (apply Rabs_le; lra).
  destruct (sub_rel x1 x2 F1 F2) as (FD & e1 & E1 & ED); [eapply Rle_trans; [exact B201|apply bpow_le; lia]|].
  set (d := a_sub A x1 x2) in *.
  destruct (op_of l2 n ltac:(unfold small in Hs; lia)) as (OF & OV).
  assert (Be1 : - uu <= e1 <= uu) by (apply Rabs_le_inv in E1; lra).
  assert (D201 : Rabs (B2R d) <= bpow radix2 201).
  { rewrite ED, Rabs_mult. replace (bpow radix2 201) with (bpow radix2 200 * 2) by (change 2 with (bpow radix2 1); rewrite <- bpow_plus; reflexivity).
    apply Rmult_le_compat; try apply Rabs_pos; [exact B201|]. apply Rabs_le. lra. }
  assert (In1 : 0 < / INR n <= 1).
  { split; [apply Rinv_0_lt_compat; lra|]. rewrite <- Rinv_1. apply Rinv_le; lra. }
  assert (DG : nz (bpow radix2 (-160)) (Rabs (B2R d))).
  { destruct (Req_dec (B2R x1) (B2R x2)) as [EQ|NE].
    - left. rewrite ED, EQ, Rminus_diag_eq, Rmult_0_l by reflexivity. apply Rabs_R0.
    - right. assert (b106 <= Rabs (B2R x1 - B2R x2)).
      { destruct (Rtotal_order (B2R x1) (B2R x2)) as [L|[L|L]]; [|lra|].
        - pose proof (float_gap x1 x2 Z1 Z2 L). rewrite Rabs_minus_sym. eapply Rle_trans; [exact H|apply Rle_abs].
        - pose proof (float_gap x2 x1 Z2 Z1 L). eapply Rle_trans; [exact H|apply Rle_abs]. }
      rewrite ED, Rabs_mult. apply Rle_trans with (b106 * / 2).
      + change (/ 2) with (bpow radix2 (-1)). unfold b106. rewrite <- bpow_plus. apply bpow_le. lia.
      + assert (0 <= b106) by (left; apply bpow_gt_0). apply Rmult_le_compat; try lra. rewrite Rabs_pos_eq by lra. lra. }
  assert (QB : Rabs (B2R d / B2R (a_of A n)) <= big).
  { rewrite OV. unfold Rdiv. rewrite Rabs_mult, (Rabs_pos_eq (/ INR n)) by lra. apply Rle_trans with (bpow radix2 201 * 1); [apply Rmult_le_compat; try lra; apply Rabs_pos|].
    rewrite Rmult_1_r. apply bpow_le. lia. }
  destruct (op_div l2 d (a_of A n) FD) as (FQ & EQ); [rewrite OV; lra|exact QB|]. split; [exact FQ|].
  destruct (rnd_rel (B2R d / B2R (a_of A n))) as (e2 & E2 & ER).
  { rewrite OV. destruct DG as [DG|DG].
    - left. unfold Rdiv. now rewrite Rabs_mult, DG, Rmult_0_l.
    - right. unfold Rdiv. rewrite Rabs_mult, (Rabs_pos_eq (/ INR n)) by lra. apply Rle_trans with (bpow radix2 (-160) * bpow radix2 (-52)).
      + rewrite <- bpow_plus. apply bpow_le. lia.
      + assert (0 < bpow radix2 (-160)) by apply bpow_gt_0. assert (0 < bpow radix2 (-52)) by apply bpow_gt_0. apply Rmult_le_compat; try lra.
        change (-52)%Z with (- (52))%Z. rewrite bpow_opp. apply Rinv_le; lra. }
  rewrite EQ, ER, OV, ED. clear EQ ER QB DG D201 ED OF OV FQ FD d.
  assert (Be2 : - uu <= e2 <= uu) by (apply Rabs_le_inv in E2; lra).
  set (P := (1 + delta) * (1 + uu) ^ S n) in *. assert (HP : 1 <= P) by (unfold P; pose proof (pow1_ge1 (S n)); nra).
  assert (EK : (1 + delta) * (1 + uu) ^ K = P * ((1 + uu) * (1 + uu))).
  { rewrite HK. replace (length s + 4)%nat with (S (S (S n))) by lia. unfold P. cbn [pow]. ring. }
  rewrite EK. set (c := (1 + e1) * (1 + e2)). set (C := (1 + uu) * (1 + uu)) in *.
  assert (Bc : Rabs (c - 1) <= C - 1) by (unfold c, C; apply Rabs_le; split; nra).
  assert (Cc : Rabs c <= C) by (unfold c, C; apply Rabs_le; split; nra).
  assert (HC : 1 <= C) by (unfold C; nra).
  replace ((B2R x1 - B2R x2) * (1 + e1) / INR n * (1 + e2) - (s1 - s2) / INR n) with
    ((((B2R x1 - s1) - (B2R x2 - s2)) * c + (s1 - s2) * (c - 1)) * / INR n) by (unfold c; field; lra).
  rewrite Rabs_mult, (Rabs_pos_eq (/ INR n)) by lra.
  apply Rmult_le_reg_r with (INR n); [lra|]. rewrite Rmult_assoc, Rinv_l, Rmult_1_r by lra.
  eapply Rle_trans; [apply Rabs_triang|]. rewrite !Rabs_mult.
  assert (D1 : Rabs (B2R x1 - s1 - (B2R x2 - s2)) <= (P - 1) * (s1 + s2)).
  { unfold Rminus at 1. eapply Rle_trans; [apply Rabs_triang|]. rewrite Rabs_Ropp. lra. }
  assert (D2 : Rabs (s1 - s2) <= s1 + s2) by (apply Rabs_le; lra).
  apply Rle_trans with ((P - 1) * (s1 + s2) * C + (s1 + s2) * (C - 1)).
  - apply Rplus_le_compat; apply Rmult_le_compat; try apply Rabs_pos; assumption.
  - replace ((P - 1) * (s1 + s2) * C + (s1 + s2) * (C - 1)) with ((P * C - 1) * (s1 + s2)) by ring.
    replace (2 * (P * C - 1) * lg (INR n) * INR n) with ((P * C - 1) * (2 * (INR n * lg (INR n)))) by ring.
    apply Rmult_le_compat_l; [nra|lra].
Qed.
End KMER.
