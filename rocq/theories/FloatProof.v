(** FloatProof.v : accumulated rounding errors of the sums in the entropy programs. *)
From Verif Require Import Base SpecStr SpecIo SpecEntropy ModelCore ModelEntropy ModelFloat FloatFacts EntropyProof.
From Coq Require Import ZArith Reals Lra.
From Flocq Require Import Core BinarySingleNaN.
Close Scope nat_scope. Open Scope R_scope.

Lemma rnd_pos b x : tiny <= b -> generic_format radix2 (SpecFloat.fexp 53 1024) b -> 0 <= x -> nz b x ->
  (1 - uu) * x <= rnd x <= (1 + uu) * x /\ 0 <= rnd x /\ nz b (rnd x).
Proof.
  intros Hb Fb Hx Hn. destruct (rnd_rel x) as (e & He & E).
  { rewrite Rabs_pos_eq by exact Hx. destruct Hn as [-> | H]; [now left|right; lra]. }
  pose proof uu_small as U. pose proof uu_pos as U0. apply Rabs_le_inv in He.
  split; [rewrite E; split; nra|]. split; [rewrite E; nra|].
  destruct Hn as [-> | H]; [left; rewrite E; ring|right]. now apply rnd_ge.
Qed.
Lemma pow1_le m n : (m <= n)%nat -> (1 + uu) ^ m <= (1 + uu) ^ n.
Proof. intros H. apply Rle_pow; [pose proof uu_pos; lra|exact H]. Qed.
Lemma pow1_ge1 m : 1 <= (1 + uu) ^ m.
Proof. apply pow_R1_Rle. pose proof uu_pos. lra. Qed.
Lemma pow0_le1 m : 0 <= (1 - uu) ^ m <= 1.
Proof.
  pose proof uu_pos. pose proof uu_small. split; [apply pow_le; lra|]. induction m as [|m IH]; [simpl; lra|].
  simpl. pose proof (pow_le (1 - uu) m ltac:(lra)). nra.
Qed.

Section SUM.
Context (l2 : b64 -> b64).
Notation A := (ieee l2).
Context (lo hi eta b : R).
Context (Hlo : 0 <= lo) (Hhi : 0 <= hi) (Heta : 0 <= eta) (Hb : tiny <= b).
Context (Fb : generic_format radix2 (SpecFloat.fexp 53 1024) b).
(** T approximates X up to relative errors lo, hi, with an absolute error in proportion to the weight W *)
Definition appr (lo hi : R) (T : b64) (X W : R) : Prop :=
  fin T /\ 0 <= B2R T /\ nz b (B2R T) /\ 0 <= X /\ 0 <= W /\ lo * (X - eta * W) <= B2R T <= hi * (X + eta * W).
Lemma appr_add m s X0 W0 T X W : appr (lo * (1 - uu) ^ m) (hi * (1 + uu) ^ m) s X0 W0 -> appr lo hi T X W ->
  hi * (1 + uu) ^ m * (X0 + X + eta * (W0 + W)) <= big ->
  appr (lo * (1 - uu) ^ S m) (hi * (1 + uu) ^ S m) (a_add A s T) (X0 + X) (W0 + W).
Proof.
  intros (F1 & P1 & N1 & PX1 & PW1 & L1 & H1) (F2 & P2 & N2 & PX2 & PW2 & L2 & H2) HB.
  pose proof uu_pos as U0. pose proof uu_small as U1. pose proof (pow1_ge1 m) as G1. pose proof (pow0_le1 m) as G0.
  set (pm := (1 + uu) ^ m) in *. set (qm := (1 - uu) ^ m) in *.
  assert (E1 : 0 <= eta * W0) by nra. assert (E2 : 0 <= eta * W) by nra.
  assert (UP : B2R s + B2R T <= hi * pm * (X0 + X + eta * (W0 + W))).
  { assert (hi * (X + eta * W) <= hi * pm * (X + eta * W)) by (apply Rmult_le_compat_r; [lra|]; nra).
    replace (hi * pm * (X0 + X + eta * (W0 + W))) with (hi * pm * (X0 + eta * W0) + hi * pm * (X + eta * W)) by ring. lra. }
  assert (LOW : lo * qm * (X0 + X - eta * (W0 + W)) <= B2R s + B2R T).
  { assert (K : lo * qm * (X - eta * W) <= B2R T).
    { destruct (Rle_lt_dec 0 (X - eta * W)) as [C|C].
      - eapply Rle_trans; [|exact L2]. apply Rmult_le_compat_r; [exact C|]. nra.
      - eapply Rle_trans; [|exact P2]. assert (0 <= lo * qm) by nra. nra. }
    replace (lo * qm * (X0 + X - eta * (W0 + W))) with (lo * qm * (X0 - eta * W0) + lo * qm * (X - eta * W)) by ring. lra. }
  destruct (op_add l2 s T F1 F2) as (F3 & E3); [rewrite Rabs_pos_eq by lra; lra|].
  assert (N3 : nz b (B2R s + B2R T)) by (destruct N1 as [N1|N1]; [rewrite N1, Rplus_0_l; exact N2|right; lra]).
  destruct (rnd_pos b (B2R s + B2R T) Hb Fb (Rplus_le_le_0_compat _ _ P1 P2) N3) as ((R1 & R2) & R3 & R4). rewrite <- E3 in R1, R2, R3, R4.
  split; [exact F3|]. split; [exact R3|]. split; [exact R4|]. split; [lra|]. split; [lra|]. split.
  - eapply Rle_trans; [|exact R1]. replace (lo * (1 - uu) ^ S m) with ((1 - uu) * (lo * qm)) by (unfold qm; simpl; ring).
    rewrite Rmult_assoc. apply Rmult_le_compat_l; [lra|exact LOW].
  - eapply Rle_trans; [exact R2|]. replace (hi * (1 + uu) ^ S m) with ((1 + uu) * (hi * pm)) by (unfold pm; simpl; ring).
    rewrite Rmult_assoc. apply Rmult_le_compat_l; [lra|exact UP].
Qed.
Lemma appr_zero : appr lo hi (a_zero A) 0 0.
Proof. split; [reflexivity|]. split; [simpl; lra|]. split; [left; reflexivity|]. split; [lra|]. split; [lra|]. simpl. lra. Qed.
Lemma sum_nonneg {B} (g : B -> R) l : Forall (fun x => 0 <= g x) l -> 0 <= sumR (map g l).
Proof. induction 1 as [|x l H _ IH]; simpl; lra. Qed.
Lemma appr_sum {B} (T : B -> b64) (X W : B -> R) l : Forall (fun p => appr lo hi (T p) (X p) (W p)) l ->
  forall m s X0 W0, appr (lo * (1 - uu) ^ m) (hi * (1 + uu) ^ m) s X0 W0 ->
  hi * (1 + uu) ^ (m + length l) * (X0 + sumR (map X l) + eta * (W0 + sumR (map W l))) <= big ->
  appr (lo * (1 - uu) ^ (m + length l)) (hi * (1 + uu) ^ (m + length l)) (fold_left (fun s p => a_add A s (T p)) l s)
    (X0 + sumR (map X l)) (W0 + sumR (map W l)).
Proof.
  induction 1 as [|p l Hp HF IH]; intros m s X0 W0 Hs HB; [cbn [length map sumR fold_right fold_left]; rewrite Nat.add_0_r, !Rplus_0_r; exact Hs|].
  cbn [length map fold_left]. change (sumR (X p :: map X l)) with (X p + sumR (map X l)) in *. change (sumR (W p :: map W l)) with (W p + sumR (map W l)) in *.
  cbn [length map] in HB. change (sumR (X p :: map X l)) with (X p + sumR (map X l)) in HB. change (sumR (W p :: map W l)) with (W p + sumR (map W l)) in HB.
  replace (m + S (length l))%nat with (S m + length l)%nat in * by lia. rewrite <- !Rplus_assoc in *.
  assert (SX : 0 <= sumR (map X l)) by (apply sum_nonneg; eapply Forall_impl; [|exact HF]; intros q Hq; apply Hq).
  assert (SW : 0 <= sumR (map W l)) by (apply sum_nonneg; eapply Forall_impl; [|exact HF]; intros q Hq; apply Hq).
  apply IH; [|exact HB]. apply appr_add; [exact Hs|exact Hp|].
  destruct Hs as (_ & _ & _ & A1 & A2 & _). destruct Hp as (_ & _ & _ & A3 & A4 & _).
  eapply Rle_trans; [|exact HB]. pose proof (pow1_le m (S m + length l) ltac:(lia)) as PL. pose proof (pow1_ge1 m) as G1.
  assert (0 <= eta * (W0 + W p)) by nra. assert (0 <= eta * sumR (map W l)) by nra.
  apply Rle_trans with (hi * (1 + uu) ^ (S m + length l) * (X0 + X p + eta * (W0 + W p))).
  - apply Rmult_le_compat_r; [lra|]. now apply Rmult_le_compat_l.
  - apply Rmult_le_compat_l; [|lra]. apply Rmult_le_pos; lra.
Qed.
(** multiplying by an exact number c and dividing by an exact number *)
Lemma appr_weaken lo' hi' T X W : appr lo hi T X W -> 0 <= lo' <= lo -> hi <= hi' -> appr lo' hi' T X W.
Proof.
  intros (F1 & P1 & N1 & PX1 & PW1 & L1 & H1) H2 H3. assert (0 <= eta * W) by nra.
  split; [exact F1|]. split; [exact P1|]. split; [exact N1|]. split; [exact PX1|]. split; [exact PW1|]. split.
  - destruct (Rle_lt_dec 0 (X - eta * W)) as [C|C]; [|nra]. eapply Rle_trans; [|exact L1]. apply Rmult_le_compat_r; lra.
  - eapply Rle_trans; [exact H1|]. apply Rmult_le_compat_r; lra.
Qed.
End SUM.
