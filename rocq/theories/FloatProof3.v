(** FloatProof3.v : the value of zero_order_entropy in binary64; relation between the two readings. *)
From Verif Require Import Base SpecStr SpecIo SpecEntropy SpecLog ModelIo ModelCore ModelEntropy ModelFloat FloatFacts EntropyProof EntropyProof4 EntropyProof5 FloatProof FloatProof2 PropsEntropy2.
From Coq Require Import ZArith Reals Lra.
From Flocq Require Import Core BinarySingleNaN.
Close Scope R_scope. Open Scope nat_scope.

(** ** any arithmetic: the value computed *)
Definition a_term (A : arith) (t c : nat) : a_num A := a_mul A (a_of A c) (a_log2 A (a_div A (a_of A t) (a_of A c))).
Definition positives (v : str) : list nat := filter (fun c => 0 <? c) (counts_of v).
Lemma positive_eq v : positives v = filter (fun c => 0 <? c) (counts_of v). Proof. reflexivity. Qed.
Definition zoe (A : arith) (v : str) : a_num A :=
  a_div A (fold_left (fun s c => a_add A s (a_term A (length v) c)) (positives v) (a_zero A)) (a_of A (length v)).
Lemma for_filter {S I} (p : I -> bool) (g : S -> I -> S) l : forall s,
  for_in l (fun x s => if p x then Ok (g s x) else Ok s) s = Ok (fold_left g (filter p l) s).
Proof. induction l as [|x l IH]; intros s; [reflexivity|]. cbn [for_in filter]. destruct (p x); cbn [bind fold_left]; apply IH. Qed.
Lemma zoe_ok A v : bytes v -> zero_order_entropy_a A v = Ok (zoe A v).
Proof.
  intros HB. unfold zero_order_entropy_a. pose proof (count_loop v [] HB) as E. rewrite counts_nil in E. cbn [length app] in E. rewrite E. cbn [bind].
  rewrite (for_filter (fun c => 0 <? c) (fun s c => a_add A s (a_term A (length v) c))). cbn [bind]. unfold zoe, positives. reflexivity.
Qed.
(** ** the exact sums *)
Lemma ok_some_inj {B} (a b : B) : Ok (Some a) = Ok (Some b) -> a = b.
Proof. intros H. injection H as H. exact H. Qed.
Lemma positive_in v c : In c (positives v) -> 1 <= c <= length v.
Proof.
  unfold positives, counts_of. intros H. apply filter_In in H. destruct H as (H & P). apply Nat.ltb_lt in P. apply in_map_iff in H. destruct H as (x & <- & _).
  split; [lia|]. unfold occ. apply count_occ_bound.
Qed.
Lemma filter_len {B} (q : B -> bool) l : length (filter q l) <= length l.
Proof. induction l as [|x l IH]; [simpl; lia|]. cbn [filter]. destruct (q x); cbn [length]; lia. Qed.
Lemma positive_length v : length (positives v) <= 256.
Proof. unfold positives. etransitivity; [apply filter_len|]. now rewrite counts_length. Qed.
Lemma sum_positive (g : nat -> R) v : g 0 = 0%R -> sumR (map g (positives v)) = sumR (map g (counts_of v)).
Proof.
  intros G0. unfold positives. induction (counts_of v) as [|c l IH]; [reflexivity|]. cbn [filter]. destruct (0 <? c) eqn:E.
  - cbn [map]. change (sumR (g c :: map g (filter (fun c => 0 <? c) l))) with (g c + sumR (map g (filter (fun c => 0 <? c) l)))%R. now rewrite IH.
  - apply Nat.ltb_ge in E. assert (c = 0) by lia. subst c. rewrite IH. cbn [map]. change (sumR (g 0 :: map g l)) with (g 0%nat + sumR (map g l))%R. rewrite G0. ring.
Qed.
Lemma sum_weights v : bytes v -> sumR (map INR (positives v)) = INR (length v).
Proof.
  intros HB. rewrite sum_positive by reflexivity. unfold counts_of. rewrite map_map. apply sum_occ; [apply seq_NoDup|].
  intros x Hx. apply in_seq. unfold bytes in HB. rewrite Forall_forall in HB. specialize (HB x Hx). lia.
Qed.
Lemma sum_terms v : bytes v -> v <> [] ->
  sumR (map (fun c => (INR c * lg (INR (length v) / INR c))%R) (positives v)) = (INR (length v) * H0 v)%R.
Proof.
  intros HB Hne. assert (Hl : 0 < length v) by (destruct v; [easy|simpl; lia]). pose proof (INR_nz _ Hl) as Z.
  set (h := fun c => (INR c * lg (INR (length v) / INR c))%R).
  rewrite (sum_positive h v) by (unfold h; simpl; ring). unfold counts_of. rewrite map_map.
  rewrite (sumR_support Nat.eq_dec (fun c => h (occ v c)) (seq 0 256) (nodup Nat.eq_dec v)).
  - unfold H0. rewrite <- sumR_scal. apply sumR_map_ext. intros c _. unfold h. unfold Rdiv. field. exact Z.
  - apply seq_NoDup.
  - apply NoDup_nodup.
  - intros c Hc. apply nodup_In in Hc. apply in_seq. unfold bytes in HB. rewrite Forall_forall in HB. specialize (HB c Hc). lia.
  - intros c _ Hc. rewrite nodup_In in Hc. apply (count_occ_not_In Nat.eq_dec) in Hc. unfold h, occ. rewrite Hc. simpl. ring.
Qed.
Lemma H0_bounds v : bytes v -> v <> [] -> (0 <= H0 v <= 8)%R.
Proof. intros HB Hne. destruct (C72_zero_order_bounds v HB Hne) as (x & E & H). rewrite zero_order_ok in E by assumption. apply ok_some_inj in E. subst x. exact H. Qed.

(** ** binary64 *)
Definition b106 : R := bpow radix2 (-106).
Open Scope R_scope.
Lemma tiny_b106 : tiny <= b106. Proof. apply bpow_le. lia. Qed.
Lemma format_b106 : generic_format radix2 (SpecFloat.fexp 53 1024) b106. Proof. apply (format_bpow (-106)). lia. Qed.
Section ZOE.
Context (l2 : b64 -> b64) (delta : R) (HL : log2_accurate l2 delta) (Hd : 0 <= delta <= / 2).
Notation A := (ieee l2).
Lemma bpow52_big : bpow radix2 60 = 256 * bpow radix2 52.
Proof. change 256 with (bpow radix2 8). rewrite <- bpow_plus. reflexivity. Qed.
Lemma pow0_anti m n : (m <= n)%nat -> (1 - uu) ^ n <= (1 - uu) ^ m.
Proof.
  intros H. replace n with (m + (n - m))%nat by lia. rewrite pow_add. pose proof (pow0_le1 m). pose proof (pow0_le1 (n - m)). nra.
Qed.
Lemma zoe_gen n l h : (1 <= n)%nat -> small n -> (length l <= 256)%nat -> (forall c, In c l -> (1 <= c <= n)%nat) ->
  sumR (map INR l) = INR n -> sumR (map (fun c => INR c * lg (INR n / INR c)) l) = INR n * h -> 0 <= h <= 8 -> forall K, (258 <= K)%nat ->
  appr eta3 b106 ((1 - delta) * (1 - uu) ^ K) ((1 + delta) * (1 + uu) ^ K)
    (a_div A (fold_left (fun s c => a_add A s (a_term A n c)) l (a_zero A)) (a_of A n)) h 1.
Proof.
  intros Hn Hs Hm HI SW ST HH K HK.
  pose proof uu_pos as U0. pose proof uu_small as U1. pose proof (INR_ge1 n Hn) as N1. pose proof (small_INR n Hs) as N2.
  assert (E3 : 0 <= eta3) by (unfold eta3; lra). assert (E31 : eta3 <= 1) by (unfold eta3; lra).
  assert (P9 : (1 + uu) ^ length l <= 9) by (apply pow1_bound; lia).
  assert (BG : (1 + delta) * (1 + uu) * 9 * (INR n * h + eta3 * INR n) <= big).
  { apply Rle_trans with (bpow radix2 60); [|apply bpow_le; lia]. rewrite bpow52_big.
    apply Rle_trans with (2 * 9 * (9 * INR n)); [|lra]. assert (INR n * h + eta3 * INR n <= 9 * INR n) by nra.
    apply Rmult_le_compat; [nra|nra|nra|exact H]. }
  assert (L0 : 0 <= (1 - delta) * (1 - uu)) by nra. assert (L1 : 0 <= (1 + delta) * (1 + uu)) by nra.
  assert (FT : Forall (fun p => appr eta3 b54 ((1 - delta) * (1 - uu)) ((1 + delta) * (1 + uu)) (a_term A n p) (INR p * lg (INR n / INR p)) (INR p)) l).
  { apply Forall_forall. intros c Hc. apply (term_ok l2 delta HL Hd); [now apply HI|exact Hs]. }
  assert (Z0 : appr eta3 b54 ((1 - delta) * (1 - uu) * (1 - uu) ^ 0) ((1 + delta) * (1 + uu) * (1 + uu) ^ 0) (a_zero A) 0 0) by apply appr_zero.
  assert (BG' : (1 + delta) * (1 + uu) * (1 + uu) ^ (0 + length l) * (0 + sumR (map (fun c => INR c * lg (INR n / INR c)) l) + eta3 * (0 + sumR (map INR l))) <= big).
  { rewrite SW, ST, !Rplus_0_l, Nat.add_0_l. eapply Rle_trans; [|exact BG]. apply Rmult_le_compat_r; [nra|]. apply Rmult_le_compat_l; [nra|exact P9]. }
  pose proof (appr_sum l2 ((1 - delta) * (1 - uu)) ((1 + delta) * (1 + uu)) eta3 b54 L0 L1 E3 tiny_b54 format_b54
    (a_term A n) (fun c => INR c * lg (INR n / INR c)) INR l FT 0%nat (a_zero A) 0 0 Z0 BG') as SS.
  rewrite SW, ST, !Rplus_0_l, Nat.add_0_l in SS. revert SS. generalize (fold_left (fun s c => a_add A s (a_term A n c)) l (a_zero A)). intros s SS.
  revert P9 Hm SS. generalize (length l). intros m P9 Hm SS.
  assert (L2 : 0 <= (1 - delta) * (1 - uu) * (1 - uu) ^ m) by (pose proof (pow0_le1 m); apply Rmult_le_pos; nra).
  assert (L3 : 0 <= (1 + delta) * (1 + uu) * (1 + uu) ^ m) by (pose proof (pow1_ge1 m); apply Rmult_le_pos; nra).
  assert (SB : B2R s <= big).
  { destruct SS as (_ & _ & _ & _ & _ & _ & SS). eapply Rle_trans; [exact SS|]. eapply Rle_trans; [|exact BG].
    apply Rmult_le_compat_r; [nra|]. apply Rmult_le_compat_l; [nra|]. exact P9. }
  assert (B5 : b106 * INR n <= b54).
  { apply Rle_trans with (b106 * bpow radix2 52); [apply Rmult_le_compat_l; [left; apply bpow_gt_0|exact N2]|unfold b106; rewrite <- bpow_plus; right; reflexivity]. }
  pose proof (appr_div l2 eta3 b54 b106 _ _ _ _ _ n L2 L3 E3 SS Hn Hs tiny_b106 format_b106 B5 SB) as D.
  replace (INR n * h / INR n) with h in D by (field; lra). replace (INR n / INR n) with 1 in D by (field; lra).
  apply (appr_weaken _ _ eta3 b106 E3 _ _ _ _ _ D).
  - replace ((1 - delta) * (1 - uu) * (1 - uu) ^ m * (1 - uu)) with ((1 - delta) * (1 - uu) ^ (S (S m))) by (cbn [pow]; ring).
    pose proof (pow0_le1 K) as P1. pose proof (pow0_anti (S (S m)) K ltac:(lia)) as P2. split; [apply Rmult_le_pos; lra|]. apply Rmult_le_compat_l; [lra|exact P2].
  - replace ((1 + delta) * (1 + uu) * (1 + uu) ^ m * (1 + uu)) with ((1 + delta) * (1 + uu) ^ (S (S m))) by (cbn [pow]; ring).
    apply Rmult_le_compat_l; [lra|]. apply pow1_le. lia.
Qed.
Lemma zoe_appr v : bytes v -> v <> [] -> small (length v) -> forall K, (258 <= K)%nat ->
  appr eta3 b106 ((1 - delta) * (1 - uu) ^ K) ((1 + delta) * (1 + uu) ^ K) (zoe A v) (H0 v) 1.
Proof.
  intros HB Hne Hs K HK. apply zoe_gen; auto.
  - destruct v; [easy|simpl; lia].
  - apply positive_length.
  - apply positive_in.
  - now apply sum_weights.
  - now apply sum_terms.
  - now apply H0_bounds.
Qed.
End ZOE.
