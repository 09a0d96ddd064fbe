(** FloatFacts.v : rounding errors of the operations of [ieee]. *)
From Verif Require Import Base SpecEntropy ModelEntropy ModelFloat.
From Coq Require Import ZArith Reals Lra.
From Flocq Require Import Core BinarySingleNaN Relative.
Close Scope nat_scope. Open Scope R_scope.

(** unit roundoff *)
Definition uu : R := bpow radix2 (-53).
Definition rnd (x : R) : R := round radix2 (SpecFloat.fexp 53 1024) ZnearestE x.
Definition big : R := bpow radix2 1000.
Definition tiny : R := bpow radix2 (-1000).
(** zero or not too small *)
Definition nz (b x : R) : Prop := x = 0 \/ b <= x.

Lemma uu_pos : 0 < uu. Proof. apply bpow_gt_0. Qed.
Lemma uu_small : uu <= / 1024.
Proof. unfold uu. change (/ 1024) with (/ bpow radix2 10). rewrite <- bpow_opp. apply bpow_le. lia. Qed.
Lemma fexp_FLT : SpecFloat.fexp 53 1024 = FLT_exp (-1074) 53.
Proof. reflexivity. Qed.
Lemma rnd_rel x : nz tiny (Rabs x) -> exists e, Rabs e <= uu /\ rnd x = x * (1 + e).
Proof.
  intros [E|L].
  - exists 0. rewrite Rabs_R0. split; [apply Rlt_le, uu_pos|]. assert (x = 0) as -> by (destruct (Req_dec x 0); [assumption|exfalso; now apply (Rabs_no_R0 x)]).
    unfold rnd. rewrite round_0 by apply valid_rnd_N. ring.
  - unfold rnd. rewrite fexp_FLT. destruct (relative_error_N_FLT_ex radix2 (-1074) 53 ltac:(lia) (fun z => negb (Z.even z)) x) as (e & He & E).
    + eapply Rle_trans; [|exact L]. apply bpow_le. lia.
    + exists e. split; [|exact E]. eapply Rle_trans; [exact He|]. right. unfold uu.
      change (/ 2) with (/ bpow radix2 1). rewrite <- bpow_opp, <- bpow_plus. reflexivity.
Qed.
Lemma rnd_ge b x : generic_format radix2 (SpecFloat.fexp 53 1024) b -> b <= x -> b <= rnd x.
Proof. intros H L. unfold rnd. apply round_ge_generic; [apply (fexp_correct 53 1024); apply prec53|apply valid_rnd_N|exact H|exact L]. Qed.
Lemma rnd_exact x : generic_format radix2 (SpecFloat.fexp 53 1024) x -> rnd x = x.
Proof. intros H. apply round_generic; [apply valid_rnd_N|exact H]. Qed.
Lemma format_bpow e : (-1074 <= e <= 1000)%Z -> generic_format radix2 (SpecFloat.fexp 53 1024) (bpow radix2 e).
Proof. intros H. rewrite fexp_FLT. apply generic_format_FLT_bpow; [reflexivity|lia]. Qed.
Lemma format_nat n : (Z.of_nat n <= 2 ^ 53)%Z -> generic_format radix2 (SpecFloat.fexp 53 1024) (INR n).
Proof.
  intros H. rewrite INR_IZR_INZ. rewrite fexp_FLT.
  replace (IZR (Z.of_nat n)) with (F2R (Float radix2 (Z.of_nat n) 0)) by (unfold F2R; simpl; ring).
  destruct (Z.eq_dec (Z.of_nat n) (2 ^ 53)) as [E|N].
  - rewrite E. replace (F2R (Float radix2 (2 ^ 53) 0)) with (bpow radix2 53) by (unfold F2R; simpl; ring).
    apply generic_format_FLT_bpow; [reflexivity|lia].
  - apply generic_format_FLT. exists (Float radix2 (Z.of_nat n) 0); [reflexivity| |simpl; lia]. simpl Fnum. rewrite Z.abs_eq by lia.
    change (radix2 ^ 53)%Z with (2 ^ 53)%Z. lia.
Qed.
Lemma big_lt x : Rabs x <= big -> Rabs (rnd x) < bpow radix2 1024.
Proof.
  intros H. apply Rle_lt_trans with (bpow radix2 1000); [|apply bpow_lt; lia].
  unfold rnd. apply abs_round_le_generic; [apply (fexp_correct 53 1024); apply prec53|apply valid_rnd_N|apply format_bpow; lia|exact H].
Qed.
Definition fin (x : b64) : Prop := is_finite x = true.
Section OPS.
Context (l2 : b64 -> b64).
Notation A := (ieee l2).
Lemma op_add (x y : b64) : fin x -> fin y -> Rabs (B2R x + B2R y) <= big ->
  fin (a_add A x y) /\ B2R (a_add A x y) = rnd (B2R x + B2R y).
Proof.
  intros Hx Hy HB. pose proof (Bplus_correct 53 1024 prec53 emax1024 mode_NE x y Hx Hy) as H.
  rewrite Rlt_bool_true in H by (apply big_lt; exact HB). destruct H as (H1 & H2 & _). split; [exact H2|exact H1].
Qed.
Lemma op_sub (x y : b64) : fin x -> fin y -> Rabs (B2R x - B2R y) <= big ->
  fin (a_sub A x y) /\ B2R (a_sub A x y) = rnd (B2R x - B2R y).
Proof.
  intros Hx Hy HB. pose proof (Bminus_correct 53 1024 prec53 emax1024 mode_NE x y Hx Hy) as H.
  rewrite Rlt_bool_true in H by (apply big_lt; exact HB). destruct H as (H1 & H2 & _). split; [exact H2|exact H1].
Qed.
Lemma op_mul (x y : b64) : fin x -> fin y -> Rabs (B2R x * B2R y) <= big ->
  fin (a_mul A x y) /\ B2R (a_mul A x y) = rnd (B2R x * B2R y).
Proof.
  intros Hx Hy HB. pose proof (Bmult_correct 53 1024 prec53 emax1024 mode_NE x y) as H.
  rewrite Rlt_bool_true in H by (apply big_lt; exact HB). destruct H as (H1 & H2 & _). unfold fin. split; [|exact H1].
  unfold fin in *. simpl a_mul. rewrite H2, Hx, Hy. reflexivity.
Qed.
Lemma op_div (x y : b64) : fin x -> B2R y <> 0 -> Rabs (B2R x / B2R y) <= big ->
  fin (a_div A x y) /\ B2R (a_div A x y) = rnd (B2R x / B2R y).
Proof.
  intros Hx Hy HB. pose proof (Bdiv_correct 53 1024 prec53 emax1024 mode_NE x y Hy) as H.
  rewrite Rlt_bool_true in H by (apply big_lt; exact HB). destruct H as (H1 & H2 & _). split; [|exact H1].
  unfold fin in *. simpl a_div. now rewrite H2.
Qed.
Lemma op_of n : (Z.of_nat n <= 2 ^ 53)%Z -> fin (a_of A n) /\ B2R (a_of A n) = INR n.
Proof.
  intros H. pose proof (binary_normalize_correct 53 1024 prec53 emax1024 mode_NE (Z.of_nat n) 0 false) as C. cbv zeta in C.
  assert (E : F2R (Float radix2 (Z.of_nat n) 0) = INR n) by (rewrite INR_IZR_INZ; unfold F2R; simpl; ring). rewrite E in C.
  change (round radix2 (SpecFloat.fexp 53 1024) (round_mode mode_NE) (INR n)) with (rnd (INR n)) in C.
  rewrite (rnd_exact (INR n)) in C by (apply format_nat; exact H).
  rewrite Rlt_bool_true in C; [destruct C as (C1 & C2 & _); split; [exact C2|exact C1]|].
  rewrite Rabs_pos_eq by apply pos_INR. apply Rle_lt_trans with (bpow radix2 53); [|apply bpow_lt; lia].
  rewrite INR_IZR_INZ. change (bpow radix2 53) with (IZR (2 ^ 53)). apply IZR_le. exact H.
Qed.
End OPS.
