(** FloatProof8.v : readable forms of the bounds; when the value is exactly zero. *)
From Verif Require Import Base SpecStr SpecIo SpecEntropy SpecLog LexFacts PermFacts ModelIo ModelCore ModelEntropy EntropyProof EntropyProof2 EntropyProof3 ModelFloat FloatFacts FloatProof FloatProof2 FloatProof3 FloatProof4 FloatProof5.
From Coq Require Import ZArith Reals Lra.
From Flocq Require Import Core BinarySingleNaN.
Close Scope nat_scope. Open Scope R_scope.

Lemma exp_lin y : 0 <= y <= / 4 -> exp y <= 1 + 4 / 3 * y.
Proof.
  intros H. pose proof (exp_ineq1_le (- y)) as E. rewrite exp_Ropp in E. pose proof (exp_pos y) as P.
  assert (E' : (1 + - y) * exp y <= 1). { apply Rmult_le_compat_r with (r := exp y) in E; [|lra]. rewrite Rinv_l in E by lra. exact E. }
  assert (Q : (1 - y) * (exp y) <= (1 - y) * (1 + 4 / 3 * y)) by nra. apply Rmult_le_reg_l in Q; lra.
Qed.
Lemma pow_lin delta N : 0 <= delta <= / 4 -> INR N * uu <= / 4 -> 1 <= (1 + delta) * (1 + uu) ^ N <= 1 + 2 * (delta + INR N * uu).
Proof.
  intros Hd HN. pose proof uu_pos as U0. pose proof (pos_INR N) as N0. pose proof (pow1_exp N) as P. pose proof (pow1_ge1 N) as P1.
  assert (Y : 0 <= INR N * uu) by nra. pose proof (exp_lin (INR N * uu) ltac:(lra)) as E. revert P P1 Y HN E.
  generalize ((1 + uu) ^ N) (INR N * uu). intros p y P P1 Y HN E. split; nra.
Qed.
Lemma pow_two' delta M : 0 <= delta <= / 2 -> 2 <= (1 - delta) * (1 - uu) ^ M + (1 + delta) * (1 + uu) ^ M.
Proof.
  intros Hd. pose proof uu_pos as U0. pose proof uu_small as U1.
  assert (G : 2 <= (1 - delta) * (1 - uu) ^ M + (1 + delta) * (1 + uu) ^ M /\ (1 - delta) * (1 - uu) ^ M <= (1 + delta) * (1 + uu) ^ M); [|apply G].
  induction M as [|M (I1 & I2)]; [simpl; lra|]. cbn [pow].
  replace ((1 - delta) * ((1 - uu) * (1 - uu) ^ M)) with ((1 - uu) * ((1 - delta) * (1 - uu) ^ M)) by ring.
  replace ((1 + delta) * ((1 + uu) * (1 + uu) ^ M)) with ((1 + uu) * ((1 + delta) * (1 + uu) ^ M)) by ring.
  assert (0 <= (1 - delta) * (1 - uu) ^ M) by (pose proof (pow0_le1 M); apply Rmult_le_pos; lra).
  revert I1 I2 H. generalize ((1 - delta) * (1 - uu) ^ M) ((1 + delta) * (1 + uu) ^ M). intros p q I1 I2 H. split; nra.
Qed.
Lemma abs_form delta N h x : 0 <= delta <= / 4 -> INR N * uu <= / 4 -> 0 <= h ->
  (1 - delta) * (1 - uu) ^ N * (h - eta3) <= x <= (1 + delta) * (1 + uu) ^ N * (h + eta3) ->
  Rabs (x - h) <= 2 * (delta + INR N * uu) * h + 6 * uu.
Proof.
  intros Hd HN Hh HX. pose proof uu_pos as U0. pose proof (pow_lin delta N Hd HN) as L. pose proof (pow_two' delta N ltac:(lra)) as T. pose proof (pow0_le1 N) as P0.
  assert (Y : 0 <= INR N * uu) by (pose proof (pos_INR N); nra).
  assert (B : 0 <= (1 - delta) * (1 - uu) ^ N <= 1) by (split; [apply Rmult_le_pos; lra|]; nra).
  unfold eta3 in HX. revert HX L T B HN Y. generalize ((1 - delta) * (1 - uu) ^ N) ((1 + delta) * (1 + uu) ^ N) (INR N * uu). intros p q y HX L T B HN Y.
  apply Rabs_le. split; nra.
Qed.

(** ** zero *)
Lemma lg_pos_zero x : 1 <= x -> lg x = 0 -> x = 1.
Proof.
  intros H E. destruct (Req_dec x 1) as [|N]; [assumption|]. exfalso. unfold lg in E. pose proof ln2_half as L2.
  assert (0 < ln x) by (rewrite <- ln_1; apply ln_increasing; lra). assert (0 < ln x / ln 2); [|lra]. unfold Rdiv. apply Rmult_lt_0_compat; [lra|apply Rinv_0_lt_compat; lra].
Qed.
Lemma sum_zero {B} (g : B -> R) l : Forall (fun x => 0 <= g x) l -> sumR (map g l) = 0 -> Forall (fun x => g x = 0) l.
Proof.
  induction 1 as [|x l H F IH]; intros E; [constructor|]. cbn [map] in E. change (sumR (g x :: map g l)) with (g x + sumR (map g l)) in E.
  pose proof (sum_nonneg g l F). constructor; [lra|]. apply IH. lra.
Qed.
Lemma sum_member {B} (g : B -> R) l x : Forall (fun x => 0 <= g x) l -> In x l -> g x <= sumR (map g l).
Proof.
  induction 1 as [|y l H F IH]; intros HI; [easy|]. cbn [map]. change (sumR (g y :: map g l)) with (g y + sumR (map g l)).
  pose proof (sum_nonneg g l F). destruct HI as [->|HI]; [lra|]. specialize (IH HI). lra.
Qed.
Lemma term_nonneg n c : (1 <= c <= n)%nat -> 0 <= INR c * lg (INR n / INR c).
Proof.
  intros H. apply Rmult_le_pos; [apply pos_INR|]. apply lg_nonneg. assert (1 <= INR c) by (apply INR_ge1; lia). assert (INR c <= INR n) by (apply le_INR; lia).
  apply Rmult_le_reg_r with (INR c); [lra|]. unfold Rdiv. rewrite Rmult_assoc, Rinv_l by lra. lra.
Qed.
Lemma terms_nonneg v : Forall (fun c => 0 <= INR c * lg (INR (length v) / INR c)) (positives v).
Proof. apply Forall_forall. intros c Hc. apply term_nonneg. now apply positive_in. Qed.
(** a letter that is not the only one contributes at least half a bit *)
Lemma term_half n c : (1 <= c)%nat -> (c < n)%nat -> / 2 <= INR c * lg (INR n / INR c).
Proof.
  intros H1 H2. assert (C1 : 1 <= INR c) by (now apply INR_ge1). assert (C2 : INR c + 1 <= INR n) by (rewrite <- S_INR; apply le_INR; lia).
  assert (Q : 0 < INR n / INR c). { unfold Rdiv. apply Rmult_lt_0_compat; [lra|apply Rinv_0_lt_compat; lra]. }
  pose proof (ln_lower (INR n / INR c) Q) as L. assert (EI : / (INR n / INR c) = INR c / INR n) by (field; lra). rewrite EI in L. pose proof inv_ln2 as I2.
  assert (LL : 1 - INR c / INR n <= lg (INR n / INR c)).
  { unfold lg, Rdiv at 2. assert (0 <= 1 - INR c / INR n).
    { assert (INR c / INR n <= 1); [|lra]. apply Rmult_le_reg_r with (INR n); [lra|]. unfold Rdiv. rewrite Rmult_assoc, Rinv_l by lra. lra. }
    nra. }
  apply Rle_trans with (INR c * (1 - INR c / INR n)); [|apply Rmult_le_compat_l; lra].
  apply Rmult_le_reg_r with (INR n); [lra|]. replace (INR c * (1 - INR c / INR n) * INR n) with (INR c * (INR n - INR c)) by (field; lra). nra.
Qed.
Lemma positive_split v : bytes v -> v <> [] -> H0 v <> 0 -> / 2 <= INR (length v) * H0 v.
Proof.
  intros HB Hne HN. rewrite <- (sum_terms v HB Hne).
  destruct (Forall_Exists_dec (fun c => c = length v) (fun c => Nat.eq_dec c (length v)) (positives v)) as [F|E].
  - exfalso. apply HN. assert (Z : INR (length v) * H0 v = 0).
    { rewrite <- (sum_terms v HB Hne). transitivity (sumR (map (fun _ : nat => 0) (positives v))).
      - apply sumR_map_ext. intros c Hc. rewrite Forall_forall in F. rewrite (F c Hc). assert (N1 : 1 <= INR (length v)) by (apply INR_ge1; destruct v; [easy|simpl; lia]).
        replace (INR (length v) / INR (length v)) with 1 by (field; lra). rewrite lg_1. ring.
      - clear. induction (positives v) as [|c l IH]; [reflexivity|]. cbn [map]. change (sumR (0 :: map (fun _ : nat => 0) l)) with (0 + sumR (map (fun _ : nat => 0) l)). lra. }
    assert (N1 : 1 <= INR (length v)) by (apply INR_ge1; destruct v; [easy|simpl; lia]). nra.
  - apply Exists_exists in E. destruct E as (c & Hc & Nc). pose proof (positive_in v c Hc) as B.
    eapply Rle_trans; [|apply (sum_member _ _ c (terms_nonneg v) Hc)]. apply term_half; lia.
Qed.
Section ZERO.
Context (l2 : b64 -> b64) (delta : R) (HL : log2_accurate l2 delta) (Hd : 0 <= delta <= / 2).
Notation A := (ieee l2).
Definition fzero (x : b64) : Prop := fin x /\ B2R x = 0.
Lemma big_pos : 0 <= big. Proof. left. apply bpow_gt_0. Qed.
Lemma fzero_add x y : fzero x -> fzero y -> fzero (a_add A x y).
Proof.
  intros (F1 & E1) (F2 & E2). destruct (op_add l2 x y F1 F2) as (F & E); [rewrite E1, E2, Rplus_0_r, Rabs_R0; apply big_pos|]. split; [exact F|].
  rewrite E, E1, E2, Rplus_0_r. unfold rnd. apply round_0, valid_rnd_N.
Qed.
Lemma fzero_mul x y : fin x -> fzero y -> fzero (a_mul A x y).
Proof.
  intros F1 (F2 & E2). destruct (op_mul l2 x y F1 F2) as (F & E); [rewrite E2, Rmult_0_r, Rabs_R0; apply big_pos|]. split; [exact F|].
  rewrite E, E2, Rmult_0_r. unfold rnd. apply round_0, valid_rnd_N.
Qed.
Lemma fzero_div x y : fzero x -> B2R y <> 0 -> fzero (a_div A x y).
Proof.
  intros (F1 & E1) N. destruct (op_div l2 x y F1 N) as (F & E); [rewrite E1; unfold Rdiv; rewrite Rmult_0_l, Rabs_R0; apply big_pos|]. split; [exact F|].
  rewrite E, E1. unfold Rdiv. rewrite Rmult_0_l. unfold rnd. apply round_0, valid_rnd_N.
Qed.
Lemma fzero_fold {B} (T : B -> b64) l : Forall (fun p => fzero (T p)) l -> forall s, fzero s -> fzero (fold_left (fun s p => a_add A s (T p)) l s).
Proof. induction 1 as [|p l H F IH]; intros s Z; [exact Z|]. cbn [fold_left]. apply IH. now apply fzero_add. Qed.
Lemma fzero_zero : fzero (a_zero A). Proof. split; reflexivity. Qed.
Lemma zoe_zero v : bytes v -> v <> [] -> small (length v) -> H0 v = 0 -> fzero (zoe A v).
Proof.
  intros HB Hne Hs E. assert (Hn : (1 <= length v)%nat) by (destruct v; [easy|simpl; lia]). pose proof (INR_ge1 _ Hn) as N1.
  destruct (op_of l2 (length v) ltac:(unfold small in Hs; lia)) as (OF & OV).
  unfold zoe. apply fzero_div; [|rewrite OV; lra]. apply fzero_fold; [|apply fzero_zero].
  pose proof (sum_terms v HB Hne) as ST. rewrite E, Rmult_0_r in ST. pose proof (sum_zero _ _ (terms_nonneg v) ST) as Z.
  apply Forall_forall. intros c Hc. rewrite Forall_forall in Z. specialize (Z c Hc). cbv beta in Z. pose proof (positive_in v c Hc) as B.
  assert (C1 : 1 <= INR c) by (apply INR_ge1; lia). assert (CN : INR c <= INR (length v)) by (apply le_INR; lia).
  assert (EC : c = length v).
  { apply INR_eq. assert (Q : INR (length v) / INR c = 1).
    { apply lg_pos_zero; [|nra]. apply Rmult_le_reg_r with (INR c); [lra|]. unfold Rdiv. rewrite Rmult_assoc, Rinv_l by lra. lra. }
    assert (Q' : INR (length v) = INR (length v) / INR c * INR c) by (field; lra). rewrite Q in Q'. lra. }
  unfold a_term. destruct (quot_ok l2 (length v) c B Hs) as (QF & QG & Q1 & _). symmetry in EC. specialize (Q1 EC).
  apply fzero_mul; [apply (op_of l2 c); unfold small in Hs; lia|].
  destruct (HL _ QF QG) as (LF & LE). rewrite Q1, lg_1, Rmult_0_r, Rminus_0_r in LE. split; [exact LF|]. pose proof (Rabs_pos (B2R (l2 (a_div A (a_of A (length v)) (a_of A c))))) as RP.
  cbn [a_log2 ieee] in *. apply Rabs_le_inv in LE. lra.
Qed.
Lemma groups_zero t k gs n : Forall (good_group_ t k) gs -> (1 <= n)%nat -> (length (concat gs) <= n)%nat -> small n -> sumR (map (gF t k) gs) = 0 ->
  fzero (a_div A (groups_sum A t k gs) (a_of A n)).
Proof.
  intros HG Hn HC Hs E. pose proof (INR_ge1 n Hn) as N1. destruct (op_of l2 n ltac:(unfold small in Hs; lia)) as (OF & OV). apply fzero_div; [|rewrite OV; lra].
  unfold groups_sum. apply fzero_fold; [|apply fzero_zero].
  assert (NE : forall g, In g gs -> bytes (map (follow t k) g) /\ map (follow t k) g <> [] /\ (2 <= length g)%nat /\ small (length g)).
  { intros g Hg. rewrite Forall_forall in HG. destruct (HG g Hg) as (G1 & G2). split; [exact G2|]. split; [intros C; apply (f_equal (@length nat)) in C; rewrite map_length in C; simpl in C; lia|].
    split; [exact G1|]. apply (small_le _ n); [|exact Hs]. etransitivity; [|exact HC]. apply in_split in Hg. destruct Hg as (g1 & g2 & ->). rewrite concat_app. cbn [concat]. rewrite !app_length. lia. }
  assert (NN : Forall (fun g => 0 <= gF t k g) gs).
  { apply Forall_forall. intros g Hg. destruct (NE g Hg) as (G1 & G2 & G3 & _). unfold gF. destruct (2 <=? length g)%nat; [|lra].
    apply Rmult_le_pos; [apply pos_INR|]. now apply H0_bounds. }
  pose proof (sum_zero _ _ NN E) as Z. apply Forall_forall. intros g Hg. destruct (NE g Hg) as (G1 & G2 & G3 & G4). rewrite Forall_forall in Z. specialize (Z g Hg). unfold gF in Z.
  destruct (Nat.leb_spec 2 (length g)); [|lia]. unfold group_val. apply fzero_mul; [apply (op_of l2); unfold small in G4; lia|].
  apply zoe_zero; auto; [now rewrite map_length|]. assert (1 <= INR (length g)) by (apply INR_ge1; lia). nra.
Qed.
End ZERO.
Lemma groups_half t k gs : Forall (good_group_ t k) gs -> sumR (map (gF t k) gs) <> 0 -> / 2 <= sumR (map (gF t k) gs).
Proof.
  intros HG HN.
  assert (NE : forall g, In g gs -> bytes (map (follow t k) g) /\ map (follow t k) g <> [] /\ (2 <= length g)%nat).
  { intros g Hg. rewrite Forall_forall in HG. destruct (HG g Hg) as (G1 & G2). split; [exact G2|]. split; [intros C; apply (f_equal (@length nat)) in C; rewrite map_length in C; simpl in C; lia|exact G1]. }
  assert (NN : Forall (fun g => 0 <= gF t k g) gs).
  { apply Forall_forall. intros g Hg. destruct (NE g Hg) as (G1 & G2 & G3). unfold gF. destruct (2 <=? length g)%nat; [|lra].
    apply Rmult_le_pos; [apply pos_INR|]. now apply H0_bounds. }
  destruct (Forall_Exists_dec (fun g => gF t k g = 0) (fun g => Req_EM_T (gF t k g) 0) gs) as [F|E].
  - exfalso. apply HN. clear - F. induction F as [|g gs H F IH]; [reflexivity|]. cbn [map]. change (sumR (gF t k g :: map (gF t k) gs)) with (gF t k g + sumR (map (gF t k) gs)). lra.
  - apply Exists_exists in E. destruct E as (g & Hg & N). eapply Rle_trans; [|apply (sum_member _ _ g NN Hg)]. destruct (NE g Hg) as (G1 & G2 & G3). unfold gF in *.
    destruct (Nat.leb_spec 2 (length g)); [|lia]. rewrite <- (map_length (follow t k) g). apply positive_split; auto. intros C. rewrite C in N. lra.
Qed.
