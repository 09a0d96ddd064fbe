(** FloatProof2.v : zero_order_entropy in binary64 *)
From Verif Require Import Base SpecStr SpecIo SpecEntropy SpecLog ModelCore ModelEntropy ModelFloat FloatFacts EntropyProof EntropyProof4 EntropyProof5 FloatProof.
From Coq Require Import ZArith Reals Lra.
From Flocq Require Import Core BinarySingleNaN.
Close Scope nat_scope. Open Scope R_scope.

(** ** logarithms *)
Lemma ln2_half : / 2 < ln 2. Proof. exact ln_lt_2. Qed.
Lemma ln_upper x : 0 < x -> ln x <= x - 1.
Proof. intros H. pose proof (exp_ineq1_le (ln x)) as E. rewrite exp_ln in E by exact H. lra. Qed.
Lemma ln_lower x : 0 < x -> 1 - / x <= ln x.
Proof. intros H. pose proof (ln_upper (/ x) (Rinv_0_lt_compat _ H)) as E. rewrite ln_Rinv in E by exact H. lra. Qed.
Lemma inv_ln2 : 1 <= / ln 2 <= 2.
Proof.
  pose proof ln2_half as L. pose proof (ln_upper 2 ltac:(lra)) as U.
  assert (I : ln 2 * / ln 2 = 1) by (apply Rinv_r; lra). assert (P : 0 < / ln 2) by (apply Rinv_0_lt_compat; lra). split; nra.
Qed.
Lemma lg_nonneg x : 1 <= x -> 0 <= lg x.
Proof. intros H. unfold lg. pose proof ln2_half. apply Rmult_le_pos; [|left; apply Rinv_0_lt_compat; lra]. rewrite <- ln_1. destruct H as [H| <-]; [left; apply ln_increasing; lra|right; reflexivity]. Qed.
Lemma lg_upper x : 1 <= x -> lg x <= 2 * x.
Proof.
  intros H. unfold lg. pose proof ln2_half as L2. pose proof (ln_upper x ltac:(lra)) as L. apply Rle_trans with ((x - 1) / ln 2).
  - apply Rmult_le_compat_r; [left; apply Rinv_0_lt_compat; lra|exact L].
  - apply Rle_trans with ((x - 1) * 2); [|lra]. apply Rmult_le_compat_l; [lra|apply inv_ln2].
Qed.
Lemma lg_near e : Rabs e <= / 1024 -> Rabs (lg (1 + e)) <= 3 * Rabs e.
Proof.
  intros H. pose proof (Rabs_le_inv _ _ H) as (H1 & H2). pose proof ln2_half as L2. unfold lg, Rdiv. rewrite Rabs_mult, (Rabs_pos_eq (/ ln 2)) by (left; apply Rinv_0_lt_compat; lra).
  pose proof inv_ln2 as (I0 & I2).
  assert (K : Rabs (ln (1 + e)) <= 1.5 * Rabs e); [|pose proof (Rabs_pos (ln (1 + e))); pose proof (Rabs_pos e); nra].
  pose proof (ln_upper (1 + e) ltac:(lra)) as LU. pose proof (ln_lower (1 + e) ltac:(lra)) as LL.
  assert (E : 1 - / (1 + e) = e * / (1 + e)) by (field; lra). rewrite E in LL.
  assert (J : / (1 + e) <= 1.5) by (apply Rmult_le_reg_l with (1 + e); [lra|]; rewrite Rinv_r by lra; lra).
  assert (J0 : 0 < / (1 + e)) by (apply Rinv_0_lt_compat; lra).
  apply Rabs_le. destruct (Rle_lt_dec 0 e) as [C|C]; [rewrite (Rabs_pos_eq e) by exact C|rewrite (Rabs_left e) by exact C]; split; nra.
Qed.
Definition step52 : R := bpow radix2 (-52).
Lemma lg_step x : 1 + step52 <= x -> step52 / 2 <= lg x.
Proof.
  intros H. assert (S0 : 0 < step52) by apply bpow_gt_0.
  assert (S1 : step52 <= / 1024) by (unfold step52; change (/ 1024) with (/ bpow radix2 10); rewrite <- bpow_opp; apply bpow_le; lia).
  pose proof ln2_half as L2. pose proof (ln_lower x ltac:(lra)) as L. unfold lg.
  pose proof inv_ln2 as (I & _).
  assert (K : step52 / 2 <= 1 - / x).
  { assert (/ x <= / (1 + step52)) by (apply Rinv_le_contravar; lra).
    assert (J : / (1 + step52) <= 1 - step52 / 2). { apply Rmult_le_reg_l with (1 + step52); [lra|]. rewrite Rinv_r by lra. nra. }
    lra. }
  assert (ln x <= ln x / ln 2); [|lra]. unfold Rdiv. assert (0 <= ln x) by lra. nra.
Qed.
(** (1+u)^N stays small *)
Lemma pow1_exp N : (1 + uu) ^ N <= exp (INR N * uu).
Proof.
  induction N as [|N IH]; [simpl; rewrite Rmult_0_l, exp_0; lra|]. rewrite S_INR. replace ((INR N + 1) * uu) with (uu + INR N * uu) by ring.
  rewrite exp_plus. simpl. apply Rmult_le_compat; [pose proof uu_pos; lra|apply pow_le; pose proof uu_pos; lra|apply exp_ineq1_le|exact IH].
Qed.
Lemma pow1_bound N : (Z.of_nat N <= 2 ^ 54)%Z -> (1 + uu) ^ N <= 9.
Proof.
  intros H. eapply Rle_trans; [apply pow1_exp|]. apply Rle_trans with (exp 2).
  - assert (INR N * uu <= 2).
    { rewrite INR_IZR_INZ. apply Rle_trans with (IZR (2 ^ 54) * uu); [apply Rmult_le_compat_r; [left; apply uu_pos|now apply IZR_le]|].
      right. unfold uu. change (IZR (2 ^ 54)) with (bpow radix2 54). rewrite <- bpow_plus. simpl. lra. }
    destruct (Rle_lt_or_eq_dec _ _ H0) as [C|C]; [left; now apply exp_increasing|right; now rewrite C].
  - replace 2 with (1 + 1) by lra. rewrite exp_plus. pose proof exp_le_3. pose proof (exp_pos 1). nra.
Qed.

Definition small (n : nat) : Prop := (Z.of_nat n <= 2 ^ 52)%Z.
Lemma small_INR n : small n -> INR n <= bpow radix2 52.
Proof. intros H. rewrite INR_IZR_INZ. change (bpow radix2 52) with (IZR (2 ^ 52)). now apply IZR_le. Qed.
Lemma small_le m n : (m <= n)%nat -> small n -> small m.
Proof. unfold small. lia. Qed.
Lemma INR_ge1 n : (1 <= n)%nat -> 1 <= INR n.
Proof. intros H. apply (le_INR 1). exact H. Qed.
Lemma format_1step : generic_format radix2 (SpecFloat.fexp 53 1024) (1 + step52).
Proof.
  rewrite fexp_FLT. apply generic_format_FLT. exists (Float radix2 (2 ^ 52 + 1) (-52)); [|simpl; lia|simpl; lia].
  unfold F2R. cbn [Fnum Fexp]. rewrite plus_IZR. change (IZR (2 ^ 52)) with (bpow radix2 52). unfold step52.
  rewrite Rmult_plus_distr_r, <- bpow_plus. simpl. lra.
Qed.
Lemma format_1 : generic_format radix2 (SpecFloat.fexp 53 1024) 1.
Proof. change 1 with (bpow radix2 0). apply format_bpow. lia. Qed.
Definition b54 : R := bpow radix2 (-54).
Lemma tiny_b54 : tiny <= b54. Proof. apply bpow_le. lia. Qed.
Lemma format_b54 : generic_format radix2 (SpecFloat.fexp 53 1024) b54. Proof. apply format_bpow. lia. Qed.
Lemma step_b54 : step52 / 4 = b54.
Proof. unfold step52, b54. replace (step52 / 4) with (step52 * bpow radix2 (-2)) by (simpl; lra). unfold Rdiv. change (/ 4) with (/ bpow radix2 2). rewrite <- bpow_opp, <- bpow_plus. reflexivity. Qed.
Lemma big_100 : bpow radix2 200 <= big. Proof. apply bpow_le. lia. Qed.

Section TERM.
Context (l2 : b64 -> b64) (delta : R) (HL : log2_accurate l2 delta) (Hd : 0 <= delta <= / 2).
Notation A := (ieee l2).
(** the logarithm of a quotient of counters *)
Lemma quot_ok (t c : nat) : (1 <= c <= t)%nat -> small t ->
  let q := a_div A (a_of A t) (a_of A c) in
  fin q /\ 1 <= B2R q /\ (t = c -> B2R q = 1) /\ (t <> c -> 1 + step52 <= B2R q) /\
  exists e, Rabs e <= uu /\ B2R q = INR t / INR c * (1 + e).
Proof.
  intros Hc Ht. cbv zeta. destruct (op_of l2 t) as (Ft & Et); [unfold small in Ht; lia|].
  destruct (op_of l2 c) as (Fc & Ec); [unfold small in Ht; lia|].
  pose proof (INR_ge1 c ltac:(lia)) as C1. assert (TC : INR c <= INR t) by (apply le_INR; lia).
  pose proof (small_INR t Ht) as T2.
  assert (Q1 : 1 <= INR t / INR c). { apply Rmult_le_reg_r with (INR c); [lra|]. unfold Rdiv. rewrite Rmult_assoc, Rinv_l by lra. lra. }
  assert (Q2 : INR t / INR c <= bpow radix2 52).
  { apply Rle_trans with (INR t); [|exact T2]. apply Rmult_le_reg_r with (INR c); [lra|]. unfold Rdiv. rewrite Rmult_assoc, Rinv_l by lra. nra. }
  assert (QB : INR t / INR c <= big) by (eapply Rle_trans; [exact Q2|]; apply bpow_le; lia).
  destruct (op_div l2 (a_of A t) (a_of A c) Ft) as (Fq & Eq).
  { rewrite Ec. lra. } { rewrite Et, Ec, Rabs_pos_eq by lra. exact QB. }
  rewrite Et, Ec in Eq. split; [exact Fq|]. rewrite Eq. split; [apply rnd_ge; [apply format_1|exact Q1]|]. split.
  { intros ->. unfold Rdiv. rewrite Rinv_r by lra. apply rnd_exact, format_1. }
  split.
  - intros N. apply rnd_ge; [apply format_1step|]. assert (INR c + 1 <= INR t) by (rewrite <- S_INR; apply le_INR; lia).
    assert (S0 : 0 < step52) by apply bpow_gt_0. assert (SC : step52 * INR c <= 1).
    { apply Rle_trans with (step52 * bpow radix2 52); [apply Rmult_le_compat_l; lra|]. unfold step52. rewrite <- bpow_plus. simpl. lra. }
    apply Rmult_le_reg_r with (INR c); [lra|]. unfold Rdiv. rewrite Rmult_assoc, Rinv_l by lra. lra.
  - apply rnd_rel. right. rewrite Rabs_pos_eq by lra. apply Rle_trans with 1; [|exact Q1]. change 1 with (bpow radix2 0). apply bpow_le. lia.
Qed.
Lemma lg_mul x y : 0 < x -> 0 < y -> lg (x * y) = lg x + lg y.
Proof. intros H1 H2. unfold lg. rewrite ln_mult by assumption. field. pose proof ln2_half. lra. Qed.
Lemma log_ok (x : b64) : fin x -> 1 <= B2R x -> B2R x <= bpow radix2 60 -> B2R x = 1 \/ 1 + step52 <= B2R x ->
  fin (l2 x) /\ nz b54 (B2R (l2 x)) /\ 0 <= B2R (l2 x) <= bpow radix2 63 /\ (1 - delta) * lg (B2R x) <= B2R (l2 x) <= (1 + delta) * lg (B2R x).
Proof.
  intros Fx H1 H2 H3. destruct (HL x Fx H1) as (FL & E). apply Rabs_le_inv in E. pose proof (lg_nonneg _ H1) as P. pose proof (lg_upper _ H1) as U.
  assert (B63 : bpow radix2 63 = 8 * bpow radix2 60) by (change 8 with (bpow radix2 3); rewrite <- bpow_plus; reflexivity).
  split; [exact FL|]. split; [|split; [split; [nra|]|lra]].
  - destruct H3 as [H3|H3].
    + left. rewrite H3, lg_1 in E. lra.
    + right. pose proof (lg_step _ H3) as S. rewrite <- step_b54. nra.
  - rewrite B63. nra.
Qed.
Definition eta3 : R := 3 * uu.
Lemma term_ok (t c : nat) : (1 <= c <= t)%nat -> small t ->
  appr eta3 b54 ((1 - delta) * (1 - uu)) ((1 + delta) * (1 + uu))
    (a_mul A (a_of A c) (a_log2 A (a_div A (a_of A t) (a_of A c)))) (INR c * lg (INR t / INR c)) (INR c).
Proof.
  intros Hc Ht. destruct (quot_ok t c Hc Ht) as (Fq & Q1 & Qe & Qn & e & He & Eq). cbv zeta in *. set (q := a_div A (a_of A t) (a_of A c)) in *.
  destruct (op_of l2 c) as (Fc & Ec); [unfold small in Ht; lia|].
  pose proof (INR_ge1 c ltac:(lia)) as C1. assert (TC : INR c <= INR t) by (apply le_INR; lia). pose proof (small_INR t Ht) as T2.
  pose proof uu_small as US. pose proof uu_pos as U0. pose proof (Rabs_le_inv _ _ He) as He'.
  assert (Q : 1 <= INR t / INR c). { apply Rmult_le_reg_r with (INR c); [lra|]. unfold Rdiv. rewrite Rmult_assoc, Rinv_l by lra. lra. }
  assert (Q2 : INR t / INR c <= bpow radix2 52).
  { apply Rle_trans with (INR t); [|exact T2]. apply Rmult_le_reg_r with (INR c); [lra|]. unfold Rdiv. rewrite Rmult_assoc, Rinv_l by lra. nra. }
  assert (QU : B2R q <= bpow radix2 60).
  { rewrite Eq. replace (bpow radix2 60) with (bpow radix2 52 * bpow radix2 8) by (rewrite <- bpow_plus; reflexivity). change (bpow radix2 8) with 256. nra. }
  destruct (log_ok q Fq Q1 QU) as (FL & NL & (PL & BL) & LL & LU).
  { destruct (Nat.eq_dec t c) as [E|N]; [left; now apply Qe|right; now apply Qn]. }
  assert (ELG : lg (B2R q) = lg (INR t / INR c) + lg (1 + e)) by (rewrite Eq; apply lg_mul; lra).
  assert (NE : Rabs (lg (1 + e)) <= eta3) by (eapply Rle_trans; [apply lg_near; lra|unfold eta3; lra]). apply Rabs_le_inv in NE.
  rewrite ELG in LL, LU. change (a_log2 A q) with (l2 q). set (L := l2 q) in *.
  assert (PX : 0 <= lg (INR t / INR c)) by now apply lg_nonneg. set (X := lg (INR t / INR c)) in *. set (x := lg (1 + e)) in *.
  assert (BP : INR c * B2R L <= bpow radix2 200).
  { apply Rle_trans with (bpow radix2 52 * bpow radix2 63); [apply Rmult_le_compat; lra|]. rewrite <- bpow_plus. apply bpow_le. lia. }
  destruct (op_mul l2 (a_of A c) L Fc FL) as (FM & EM); [rewrite Ec, Rabs_pos_eq by nra; eapply Rle_trans; [exact BP|apply big_100]|].
  rewrite Ec in EM. assert (NM : nz b54 (INR c * B2R L)).
  { destruct NL as [N0|N0]; [left; rewrite N0; ring|right]. assert (0 < b54) by apply bpow_gt_0. nra. }
  destruct (rnd_pos b54 (INR c * B2R L) tiny_b54 format_b54 ltac:(nra) NM) as ((R1 & R2) & R3 & R4). rewrite <- EM in R1, R2, R3, R4.
  split; [exact FM|]. split; [exact R3|]. split; [exact R4|]. split; [nra|]. split; [lra|]. split.
  - eapply Rle_trans; [|exact R1]. replace (INR c * X - eta3 * INR c) with (INR c * (X - eta3)) by ring.
    replace ((1 - delta) * (1 - uu) * (INR c * (X - eta3))) with ((1 - uu) * (INR c * ((1 - delta) * (X - eta3)))) by ring.
    apply Rmult_le_compat_l; [lra|]. apply Rmult_le_compat_l; [lra|]. eapply Rle_trans; [|exact LL]. apply Rmult_le_compat_l; lra.
  - eapply Rle_trans; [exact R2|]. replace (INR c * X + eta3 * INR c) with (INR c * (X + eta3)) by ring.
    replace ((1 + delta) * (1 + uu) * (INR c * (X + eta3))) with ((1 + uu) * (INR c * ((1 + delta) * (X + eta3)))) by ring.
    apply Rmult_le_compat_l; [lra|]. apply Rmult_le_compat_l; [lra|]. eapply Rle_trans; [exact LU|]. apply Rmult_le_compat_l; lra.
Qed.
(** dividing and multiplying by a counter *)
Lemma appr_div eta b b' lo hi s X W n : 0 <= lo -> 0 <= hi -> 0 <= eta -> appr eta b lo hi s X W -> (1 <= n)%nat -> small n -> tiny <= b' ->
  generic_format radix2 (SpecFloat.fexp 53 1024) b' -> b' * INR n <= b -> B2R s <= big ->
  appr eta b' (lo * (1 - uu)) (hi * (1 + uu)) (a_div A s (a_of A n)) (X / INR n) (W / INR n).
Proof.
  intros Hlo Hhi Heta (F1 & P1 & N1 & PX1 & PW1 & L1 & H1) Hn Hs Hb' Fb' HB HBig.
  destruct (op_of l2 n) as (Fn & En); [unfold small in Hs; lia|]. pose proof (INR_ge1 n Hn) as C1. pose proof uu_pos as U0. pose proof uu_small as U1.
  assert (I0 : 0 < / INR n) by (apply Rinv_0_lt_compat; lra). assert (I1 : / INR n <= 1) by (rewrite <- Rinv_1; apply Rinv_le_contravar; lra).
  assert (P2 : 0 <= B2R s / INR n) by (unfold Rdiv; nra).
  destruct (op_div l2 s (a_of A n) F1) as (F2 & E2); [rewrite En; lra|rewrite En, Rabs_pos_eq by exact P2; unfold Rdiv; nra|]. rewrite En in E2.
  assert (N2 : nz b' (B2R s / INR n)).
  { destruct N1 as [E|N]; [left; rewrite E; unfold Rdiv; ring|right]. apply Rmult_le_reg_r with (INR n); [lra|]. unfold Rdiv. rewrite Rmult_assoc, Rinv_l by lra. lra. }
  destruct (rnd_pos b' _ Hb' Fb' P2 N2) as ((R1 & R2) & R3 & R4). rewrite <- E2 in R1, R2, R3, R4.
  split; [exact F2|]. split; [exact R3|]. split; [exact R4|]. split; [unfold Rdiv; nra|]. split; [unfold Rdiv; nra|]. split.
  - eapply Rle_trans; [|exact R1]. replace (lo * (1 - uu) * (X / INR n - eta * (W / INR n))) with ((1 - uu) * (lo * (X - eta * W) / INR n)) by (unfold Rdiv; ring).
    apply Rmult_le_compat_l; [lra|]. unfold Rdiv. apply Rmult_le_compat_r; lra.
  - eapply Rle_trans; [exact R2|]. replace (hi * (1 + uu) * (X / INR n + eta * (W / INR n))) with ((1 + uu) * (hi * (X + eta * W) / INR n)) by (unfold Rdiv; ring).
    apply Rmult_le_compat_l; [lra|]. unfold Rdiv. apply Rmult_le_compat_r; lra.
Qed.
Lemma appr_mul eta b lo hi s X W n : 0 <= lo -> 0 <= hi -> 0 <= eta -> 0 <= b -> tiny <= b -> generic_format radix2 (SpecFloat.fexp 53 1024) b ->
  appr eta b lo hi s X W -> (1 <= n)%nat -> small n -> INR n * B2R s <= big ->
  appr eta b (lo * (1 - uu)) (hi * (1 + uu)) (a_mul A (a_of A n) s) (INR n * X) (INR n * W).
Proof.
  intros Hlo Hhi Heta Hb0 Hb Fb (F1 & P1 & N1 & PX1 & PW1 & L1 & H1) Hn Hs HBig.
  destruct (op_of l2 n) as (Fn & En); [unfold small in Hs; lia|]. pose proof (INR_ge1 n Hn) as C1. pose proof uu_pos as U0. pose proof uu_small as U1.
  assert (P2 : 0 <= INR n * B2R s) by nra.
  destruct (op_mul l2 (a_of A n) s Fn F1) as (F2 & E2); [rewrite En, Rabs_pos_eq by exact P2; exact HBig|]. rewrite En in E2.
  assert (N2 : nz b (INR n * B2R s)) by (destruct N1 as [E|N]; [left; rewrite E; ring|right; nra]).
  destruct (rnd_pos b _ Hb Fb P2 N2) as ((R1 & R2) & R3 & R4). rewrite <- E2 in R1, R2, R3, R4.
  split; [exact F2|]. split; [exact R3|]. split; [exact R4|]. split; [nra|]. split; [nra|]. split.
  - eapply Rle_trans; [|exact R1]. replace (lo * (1 - uu) * (INR n * X - eta * (INR n * W))) with ((1 - uu) * (INR n * (lo * (X - eta * W)))) by ring.
    apply Rmult_le_compat_l; [lra|]. apply Rmult_le_compat_l; lra.
  - eapply Rle_trans; [exact R2|]. replace (hi * (1 + uu) * (INR n * X + eta * (INR n * W))) with ((1 + uu) * (INR n * (hi * (X + eta * W)))) by ring.
    apply Rmult_le_compat_l; [lra|]. apply Rmult_le_compat_l; lra.
Qed.
End TERM.
