(** FloatLog.v : the correctly rounded binary logarithm is accurate, so the hypothesis on f64::log2 can be met. *)
From Verif Require Import Base SpecEntropy SpecLog ModelFloat FloatFacts EntropyProof FloatProof FloatProof2 FloatProof7.
From Coq Require Import ZArith Reals Lra.
From Flocq Require Import Core BinarySingleNaN.
Close Scope nat_scope. Open Scope R_scope.

(** the binary64 number nearest to r *)
Definition nearest (r : R) : b64 :=
  binary_normalize 53 1024 prec53 emax1024 mode_NE (Ztrunc (scaled_mantissa radix2 (SpecFloat.fexp 53 1024) (rnd r))) (cexp radix2 (SpecFloat.fexp 53 1024) (rnd r)) false.
Definition log2_nearest (x : b64) : b64 := nearest (lg (B2R x)).
Lemma nearest_ok r : Rabs r <= big -> is_finite (nearest r) = true /\ B2R (nearest r) = rnd r.
Proof.
  intros H. unfold nearest.
  assert (G : generic_format radix2 (SpecFloat.fexp 53 1024) (rnd r)) by (apply generic_format_round; [apply (fexp_correct 53 1024); exact prec53|apply valid_rnd_N]).
  pose proof (binary_normalize_correct 53 1024 prec53 emax1024 mode_NE (Ztrunc (scaled_mantissa radix2 (SpecFloat.fexp 53 1024) (rnd r))) (cexp radix2 (SpecFloat.fexp 53 1024) (rnd r)) false) as C.
  cbv zeta in C. rewrite <- G in C.
  change (round radix2 (SpecFloat.fexp 53 1024) (round_mode mode_NE) (rnd r)) with (rnd (rnd r)) in C. rewrite (rnd_exact (rnd r) G) in C.
  rewrite Rlt_bool_true in C; [destruct C as (C1 & C2 & _); split; [exact C2|exact C1]|]. now apply big_lt.
Qed.
Lemma lg_pow2 n : lg (2 ^ n) = INR n.
Proof.
  induction n as [|n IH]; [exact lg_1|]. cbn [pow]. rewrite lg_mul, IH, S_INR; [|lra|apply pow_lt; lra].
  assert (lg 2 = 1) by (unfold lg; field; pose proof ln2_half; lra). lra.
Qed.
Lemma above_one (x : b64) : 1 <= B2R x -> B2R x = 1 \/ 1 + step52 <= B2R x.
Proof.
  intros H. destruct (Req_dec (B2R x) 1) as [E|N]; [now left|]. right.
  pose proof (generic_format_B2R 53 1024 x) as FX.
  pose proof (succ_le_lt radix2 (SpecFloat.fexp 53 1024) 1 (B2R x) format_1 FX ltac:(lra)) as S.
  rewrite succ_eq_pos in S by lra. change 1 with (bpow radix2 0) in S at 2. rewrite ulp_bpow in S. exact S.
Qed.
Lemma bpow_nat n : bpow radix2 (Z.of_nat n) = 2 ^ n.
Proof. induction n as [|n IH]; [reflexivity|]. rewrite Nat2Z.inj_succ, <- Z.add_1_r, bpow_plus, IH. cbn [pow]. change (bpow radix2 1) with 2. ring. Qed.
Lemma bpow_pow2 : bpow radix2 1024 = 2 ^ 1024.
Proof. exact (bpow_nat 1024). Qed.
Lemma roundoff_uu : roundoff = uu.
Proof. unfold roundoff, uu. change (-53)%Z with (- Z.of_nat 53)%Z. rewrite bpow_opp, bpow_nat. reflexivity. Qed.
Theorem log2_nearest_accurate : log2_accurate log2_nearest roundoff.
Proof.
  intros x FX HX. unfold log2_nearest.
  pose proof roundoff_uu as U.
  assert (LB : 0 <= lg (B2R x) <= 1024).
  { split; [now apply lg_nonneg|]. replace 1024 with (INR 1024) by (rewrite INR_IZR_INZ; reflexivity). rewrite <- (lg_pow2 1024). apply lg_mono; [lra|].
    pose proof (abs_B2R_lt_emax 53 1024 x) as B. apply Rlt_le in B. rewrite Rabs_pos_eq in B by lra. eapply Rle_trans; [exact B|]. right.
    apply bpow_pow2. }
  assert (BG : Rabs (lg (B2R x)) <= big).
  { rewrite Rabs_pos_eq by lra. apply Rle_trans with (bpow radix2 10); [simpl; lra|]. apply bpow_le. lia. }
  destruct (nearest_ok _ BG) as (F & E). split; [exact F|]. rewrite E, U.
  destruct (rnd_rel (lg (B2R x))) as (e & E1 & E2).
  { rewrite Rabs_pos_eq by lra. destruct (above_one x HX) as [->|N]; [left; exact lg_1|]. right. apply Rle_trans with (step52 / 2); [|now apply lg_step].
    unfold step52. replace (bpow radix2 (-52) / 2) with (bpow radix2 (-53)). { apply bpow_le. lia. }
    replace (bpow radix2 (-52)) with (bpow radix2 (-53) * 2); [field|]. change 2 with (bpow radix2 1). rewrite <- bpow_plus. reflexivity. }
  rewrite E2. replace (lg (B2R x) * (1 + e) - lg (B2R x)) with (e * lg (B2R x)) by ring. rewrite Rabs_mult, (Rabs_pos_eq (lg (B2R x))) by lra.
  apply Rmult_le_compat_r; lra.
Qed.
