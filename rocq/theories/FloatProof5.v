(** FloatProof5.v : kth_order_entropy in binary64. *)
From Verif Require Import Base SpecStr SpecIo SpecEntropy SpecLog LexFacts PermFacts ModelIo ModelCore ModelEntropy EntropyProof EntropyProof2 EntropyProof3 ModelFloat FloatFacts FloatProof FloatProof2 FloatProof3 FloatProof4.
From Coq Require Import ZArith Reals Lra.
From Flocq Require Import Core BinarySingleNaN.
Close Scope R_scope. Open Scope nat_scope.

Lemma groups_count {B} (gs : list (list B)) : Forall (fun g => 2 <= length g) gs -> 2 * length gs <= length (concat gs).
Proof. induction 1 as [|g gs H F IH]; [simpl; lia|]. cbn [length concat]. rewrite app_length. lia. Qed.
Lemma sum_lengths {B} (gs : list (list B)) : sumR (map (fun g => INR (length g)) gs) = INR (length (concat gs)).
Proof.
  induction gs as [|g gs IH]; [reflexivity|]. cbn [map concat]. rewrite app_length, plus_INR, <- IH. reflexivity.
Qed.
Lemma sum_le {B} (f g : B -> R) l : Forall (fun x => (f x <= g x)%R) l -> (sumR (map f l) <= sumR (map g l))%R.
Proof. induction 1 as [|x l H F IH]; [simpl; lra|]. unfold sumR in *. cbn [map fold_right]. lra. Qed.
Definition b160 : R := bpow radix2 (-160).
Open Scope R_scope.
Lemma tiny_b160 : tiny <= b160. Proof. apply bpow_le. lia. Qed.
Lemma format_b160 : generic_format radix2 (SpecFloat.fexp 53 1024) b160. Proof. apply (format_bpow (-160)). lia. Qed.

Section KTH.
Context (l2 : b64 -> b64) (delta : R) (HL : log2_accurate l2 delta) (Hd : 0 <= delta <= / 2).
Notation A := (ieee l2).
Lemma group_appr t k g K : good_group_ t k g -> small (length g) -> (258 <= K)%nat -> (Z.of_nat K <= 2 ^ 53)%Z ->
  appr eta3 b106 ((1 - delta) * (1 - uu) ^ S K) ((1 + delta) * (1 + uu) ^ S K) (group_val A t k g) (INR (length g) * H0 (map (follow t k) g)) (INR (length g)).
Proof.
  intros (G1 & G2) Hs HK HK2. set (v := map (follow t k) g) in *. assert (Lv : length v = length g) by apply map_length.
  assert (Hne : v <> []) by (intros C; rewrite C in Lv; simpl in Lv; lia).
  pose proof (zoe_appr l2 delta HL Hd v G2 Hne ltac:(rewrite Lv; exact Hs) K HK) as Z. unfold group_val. fold v.
  pose proof uu_pos as U0. pose proof uu_small as U1. pose proof (H0_bounds v G2 Hne) as HH. pose proof (small_INR _ Hs) as N2.
  assert (E3 : 0 <= eta3 <= 1) by (unfold eta3; lra).
  pose proof (pow0_le1 K) as P0. pose proof (pow1_ge1 K) as P1. pose proof (pow1_bound K ltac:(lia)) as P2.
  assert (L0 : 0 <= (1 - delta) * (1 - uu) ^ K) by (apply Rmult_le_pos; lra).
  assert (L1 : 0 <= (1 + delta) * (1 + uu) ^ K) by (apply Rmult_le_pos; lra).
  assert (BB : INR (length g) * B2R (zoe A v) <= big).
  { destruct Z as (_ & Z1 & _ & _ & _ & _ & Z). apply Rle_trans with (bpow radix2 60); [|apply bpow_le; lia]. rewrite bpow52_big.
    assert (B2R (zoe A v) <= 256). { eapply Rle_trans; [exact Z|]. apply Rle_trans with (2 * 9 * 9); [|lra]. apply Rmult_le_compat; [exact L1|lra|apply Rmult_le_compat; lra|lra]. }
    rewrite (Rmult_comm 256). apply Rmult_le_compat; [apply pos_INR|exact Z1|exact N2|exact H]. }
  assert (Bp : 0 <= b106) by (left; apply bpow_gt_0).
  pose proof (appr_mul l2 eta3 b106 _ _ _ _ _ (length g) L0 L1 (proj1 E3) Bp tiny_b106 format_b106 Z ltac:(lia) Hs BB) as M.
  rewrite Rmult_1_r in M. cbn [pow].
  replace ((1 - delta) * ((1 - uu) * (1 - uu) ^ K)) with ((1 - delta) * (1 - uu) ^ K * (1 - uu)) by ring.
  replace ((1 + delta) * ((1 + uu) * (1 + uu) ^ K)) with ((1 + delta) * (1 + uu) ^ K * (1 + uu)) by ring.
  exact M.
Qed.

Lemma groups_appr t k gs n K : Forall (good_group_ t k) gs -> (1 <= n)%nat -> (length (concat gs) <= n)%nat -> small n -> (260 + n <= K)%nat ->
  let x := a_div A (groups_sum A t k gs) (a_of A n) in let h := sumR (map (gF t k) gs) / INR n in
  fin x /\ 0 <= B2R x /\ (1 - delta) * (1 - uu) ^ K * (h - eta3) <= B2R x <= (1 + delta) * (1 + uu) ^ K * (h + eta3).
Proof.
  intros HG Hn HC Hs HK. cbv zeta.
  pose proof uu_pos as U0. pose proof uu_small as U1. pose proof (small_INR _ Hs) as N2. pose proof (INR_ge1 n Hn) as N1.
  assert (E3 : 0 <= eta3 <= 1) by (unfold eta3; lra).
  assert (GC : (2 * length gs <= length (concat gs))%nat). { apply groups_count. eapply Forall_impl; [|exact HG]. intros g (G & _). exact G. }
  assert (SL : forall g, In g gs -> (length g <= n)%nat).
  { intros g Hg. etransitivity; [|exact HC]. apply in_split in Hg. destruct Hg as (g1 & g2 & ->). rewrite concat_app. cbn [concat]. rewrite !app_length. lia. }
  assert (K1 : exists K0, K0 = 258%nat) by eauto. destruct K1 as (K0 & HK0).
  set (lo := (1 - delta) * (1 - uu) ^ S K0). set (hi := (1 + delta) * (1 + uu) ^ S K0).
  pose proof (pow0_le1 (S K0)) as P0. pose proof (pow1_ge1 (S K0)) as P1.
  assert (L0 : 0 <= lo) by (apply Rmult_le_pos; lra). assert (L1 : 0 <= hi) by (apply Rmult_le_pos; lra).
  set (X := fun g => INR (length g) * H0 (map (follow t k) g)).
  assert (FT : Forall (fun g => appr eta3 b106 lo hi (group_val A t k g) (X g) (INR (length g))) gs).
  { apply Forall_forall. intros g Hg. apply group_appr; [rewrite Forall_forall in HG; now apply HG|apply (small_le _ n); auto|lia|lia]. }
  assert (EX : sumR (map X gs) = sumR (map (gF t k) gs)).
  { apply sumR_map_ext. intros g Hg. rewrite Forall_forall in HG. destruct (HG g Hg) as (G & _). unfold X, gF. destruct (Nat.leb_spec 2 (length g)); [reflexivity|lia]. }
  assert (EW : sumR (map (fun g : list nat => INR (length g)) gs) = INR (length (concat gs))) by apply sum_lengths.
  assert (BX : 0 <= sumR (map X gs) <= 8 * INR n).
  { split.
    - apply sum_nonneg. eapply Forall_impl; [|exact FT]. intros g (_ & _ & _ & G & _). exact G.
    - apply Rle_trans with (8 * INR (length (concat gs))); [|apply Rmult_le_compat_l; [lra|now apply le_INR]]. rewrite <- EW, <- sumR_scal. apply sum_le.
      apply Forall_forall. intros g Hg. rewrite Forall_forall in HG. destruct (HG g Hg) as (G & G2). unfold X. rewrite Rmult_comm. apply Rmult_le_compat_r; [apply pos_INR|].
      apply H0_bounds; [exact G2|]. intros C. apply (f_equal (@length nat)) in C. rewrite map_length in C. simpl in C. lia. }
  assert (BW : 0 <= INR (length (concat gs)) <= INR n) by (split; [apply pos_INR|now apply le_INR]).
  set (m := length gs) in *.
  assert (P9 : (1 + uu) ^ (S K0 + m) <= 9) by (apply pow1_bound; unfold small in Hs; lia).
  assert (HP : hi * (1 + uu) ^ m <= 2 * 9). { unfold hi. rewrite Rmult_assoc, <- pow_add. apply Rmult_le_compat; [lra| |lra|exact P9]. apply pow_le. lra. }
  pose proof (pow1_ge1 m) as PM.
  assert (BG : hi * (1 + uu) ^ (0 + m) * (0 + sumR (map X gs) + eta3 * (0 + sumR (map (fun g : list nat => INR (length g)) gs))) <= big).
  { rewrite EW, !Rplus_0_l, Nat.add_0_l. apply Rle_trans with (bpow radix2 60); [|apply bpow_le; lia]. rewrite bpow52_big.
    apply Rle_trans with (2 * 9 * (9 * INR n)); [|lra]. apply Rmult_le_compat; [apply Rmult_le_pos; lra|nra|exact HP|nra]. }
  assert (Z0 : appr eta3 b106 (lo * (1 - uu) ^ 0) (hi * (1 + uu) ^ 0) (a_zero A) 0 0) by apply appr_zero.
  pose proof (appr_sum l2 lo hi eta3 b106 L0 L1 (proj1 E3) tiny_b106 format_b106
    (group_val A t k) X (fun g : list nat => INR (length g)) gs FT 0%nat (a_zero A) 0 0 Z0 BG) as SS.
  fold (groups_sum A t k gs) in SS. fold m in SS. rewrite EX in *. rewrite EW, !Rplus_0_l, Nat.add_0_l in SS.
  revert SS. generalize (groups_sum A t k gs). intros s SS. rewrite EW, !Rplus_0_l, Nat.add_0_l in BG.
  assert (SB : B2R s <= big). { destruct SS as (_ & _ & _ & _ & _ & _ & SS). eapply Rle_trans; [exact SS|exact BG]. }
  assert (B5 : b160 * INR n <= b106).
  { apply Rle_trans with (b160 * bpow radix2 52); [apply Rmult_le_compat_l; [left; apply bpow_gt_0|exact N2]|unfold b160; rewrite <- bpow_plus; apply bpow_le; lia]. }
  pose proof (pow0_le1 m) as PM0.
  assert (L2 : 0 <= lo * (1 - uu) ^ m) by (apply Rmult_le_pos; lra).
  assert (L3 : 0 <= hi * (1 + uu) ^ m) by (apply Rmult_le_pos; lra).
  pose proof (appr_div l2 eta3 b106 b160 _ _ _ _ _ n L2 L3 (proj1 E3) SS Hn Hs tiny_b160 format_b160 B5 SB) as D.
  set (h := sumR (map (gF t k) gs) / INR n) in *.
  assert (Hh : 0 <= h) by (unfold h, Rdiv; apply Rmult_le_pos; [lra|left; apply Rinv_0_lt_compat; lra]).
  assert (W1 : 0 <= INR (length (concat gs)) / INR n <= 1).
  { split; [unfold Rdiv; apply Rmult_le_pos; [lra|left; apply Rinv_0_lt_compat; lra]|]. apply Rmult_le_reg_r with (INR n); [lra|]. unfold Rdiv. rewrite Rmult_assoc, Rinv_l by lra. lra. }
  destruct D as (D1 & D2 & _ & _ & _ & D3 & D4). split; [exact D1|]. split; [exact D2|]. 
  assert (ELo : lo * (1 - uu) ^ m * (1 - uu) = (1 - delta) * (1 - uu) ^ (S (S K0 + m))).
  { unfold lo. cbn [pow plus]. rewrite pow_add. ring. }
  assert (EHi : hi * (1 + uu) ^ m * (1 + uu) = (1 + delta) * (1 + uu) ^ (S (S K0 + m))).
  { unfold hi. cbn [pow plus]. rewrite pow_add. ring. }
  rewrite ELo in D3. rewrite EHi in D4. set (M := S (S K0 + m)) in *. assert (HM : (M <= K)%nat) by (unfold M; lia).
  pose proof (pow0_le1 K) as PK. pose proof (pow0_anti M K HM) as PKM. pose proof (pow1_le M K HM) as PKM1. pose proof (pow1_ge1 M) as PM1. pose proof (pow0_le1 M) as PM0'.
  split.
  - destruct (Rle_dec 0 (h - eta3)) as [Y|Y].
    + eapply Rle_trans; [|exact D3]. apply Rmult_le_compat; [apply Rmult_le_pos; lra|exact Y| |nra]. apply Rmult_le_compat_l; lra.
    + apply Rle_trans with 0; [|exact D2]. assert (0 <= (1 - delta) * (1 - uu) ^ K) by (apply Rmult_le_pos; lra). nra.
  - eapply Rle_trans; [exact D4|]. apply Rmult_le_compat; [apply Rmult_le_pos; lra|nra| |nra]. apply Rmult_le_compat_l; lra.
Qed.

Lemma kth_float sort s k W : (forall t, is_suffix_array t (sort t)) -> s <> [] -> bytes s -> Forall (fun x => x <> 0%nat) s -> (0 < k)%nat ->
  contexts (s ++ [0%nat]) k W -> small (length s + 1) -> forall K, (length s + 261 <= K)%nat ->
  exists x, kth_order_entropy_a A sort (s ++ [0%nat]) k = Ok x /\ fin x /\ 0 <= B2R x /\
    (1 - delta) * (1 - uu) ^ K * (Hk (s ++ [0%nat]) W - eta3) <= B2R x <= (1 + delta) * (1 + uu) ^ K * (Hk (s ++ [0%nat]) W + eta3).
Proof.
  intros HSo Hne HB Hz Hk HW Hs K HK. set (t := s ++ [0%nat]). assert (Lt : length t = (length s + 1)%nat) by (unfold t; rewrite app_length; reflexivity).
  assert (Hs0 : (0 < length s)%nat) by (destruct s; [easy|simpl; lia]).
  destruct (kth_a_ok A s k (sort t) Hz HB Hk (HSo t) sort eq_refl Hs0) as (gs & E & F & S1 & LC). fold t in E, F, S1, LC.
  eexists. split; [exact E|].
  pose proof (groups_appr t k gs (length t) K F ltac:(lia) LC ltac:(rewrite Lt; exact Hs) ltac:(lia)) as G. cbv zeta in G. rewrite S1 in G.
  pose proof (gsum_contexts s k (sort t) Hz Hk (HSo t) W HW) as GC. fold t in GC. rewrite GC in G. fold (SpecEntropy.Hk t W) in G. exact G.
Qed.
End KTH.
