(** FloatProof6.v : entropy_via_kmer_counting in binary64. *)
From Verif Require Import Base SpecStr SpecIo SpecEntropy SpecLog LexFacts PermFacts ModelIo ModelCore ModelEntropy EntropyProof EntropyProof2 EntropyProof3 ModelFloat FloatFacts FloatProof FloatProof2 FloatProof3 FloatProof4 FloatProof5.
From Coq Require Import NArith ZArith Reals Lra.
From Flocq Require Import Core BinarySingleNaN.
Close Scope R_scope. Open Scope nat_scope.

(** ** the counters of a map *)
Definition counters (m : list (N * nat)) : list nat := map snd m.
Lemma bump_sum x m : list_sum (counters (bump x m)) = 1 + list_sum (counters m).
Proof. unfold counters. induction m as [|(y, c) m IH]; [reflexivity|]. cbn [bump]. destruct (N.eqb y x); cbn [map snd list_sum fold_right]; [|change (fold_right Nat.add 0 ?l) with (list_sum l); rewrite IH]; lia. Qed.
Lemma bump_len x m : length (bump x m) <= 1 + length m.
Proof. induction m as [|(y, c) m IH]; [simpl; lia|]. cbn [bump]. destruct (N.eqb y x); cbn [length]; lia. Qed.
Lemma bump_pos x m : Forall (fun c => 1 <= c) (counters m) -> Forall (fun c => 1 <= c) (counters (bump x m)).
Proof.
  unfold counters. induction m as [|(y, c) m IH]; intros F; [repeat constructor|]. cbn [bump]. cbn [map snd] in F. inversion F; subst.
  destruct (N.eqb y x); cbn [map snd]; constructor; auto. lia.
Qed.
Lemma bumps_counts l : list_sum (counters (bumps l)) = length l /\ length (bumps l) <= length l /\ Forall (fun c => 1 <= c) (counters (bumps l)).
Proof.
  unfold bumps. assert (G : forall l m, list_sum (counters (fold_left (fun m x => bump x m) l m)) = length l + list_sum (counters m) /\
    length (fold_left (fun m x => bump x m) l m) <= length l + length m /\ (Forall (fun c => 1 <= c) (counters m) -> Forall (fun c => 1 <= c) (counters (fold_left (fun m x => bump x m) l m)))).
  { clear l. induction l as [|x l IH]; intros m; [simpl; auto|]. cbn [fold_left length]. destruct (IH (bump x m)) as (I1 & I2 & I3). rewrite I1, bump_sum.
    pose proof (bump_len x m). split; [lia|]. split; [lia|]. intros F. apply I3. now apply bump_pos. }
  destruct (G l []) as (G1 & G2 & G3). rewrite G1. cbn [length counters map] in *. split; [apply Nat.add_0_r|]. split; [lia|]. apply G3. constructor.
Qed.
Lemma counters_perm m l : Permutation m (bumps l) -> list_sum (counters m) = length l /\ length m <= length l /\ Forall (fun c => 1 <= c) (counters m).
Proof.
  intros P. destruct (bumps_counts l) as (B1 & B2 & B3). pose proof (Permutation_map snd P) as PM. fold (counters m) (counters (bumps l)) in PM.
  split; [|split].
  - rewrite <- B1. clear - PM. unfold list_sum. induction PM; cbn [fold_right]; lia.
  - now rewrite (Permutation_length P).
  - eapply Permutation_Forall; [apply Permutation_sym; exact PM|exact B3].
Qed.
Lemma INR_list_sum l : INR (list_sum l) = sumR (map INR l).
Proof. unfold list_sum, sumR. induction l as [|x l IH]; [reflexivity|]. cbn [fold_right map]. now rewrite plus_INR, IH. Qed.

(** ** any arithmetic *)
Definition log_fold (A : arith) (l : list nat) : a_num A := fold_left (fun s c => a_add A s (a_mul A (a_of A c) (a_log2 A (a_of A c)))) l (a_zero A).
Lemma log_sum_a_fold A m : log_sum_a A m = log_fold A (counters m).
Proof. unfold log_sum_a, log_fold, counters. generalize (a_zero A). induction m as [|x m IH]; intros z; [reflexivity|]. cbn [fold_left map]. apply IH. Qed.
Lemma kmer_a_ok A it1 it2 t k : bytes t -> 1 <= k <= 7 -> k <= length t ->
  (forall m, Permutation (it1 m) m) -> (forall m, Permutation (it2 m) m) -> exists l1 l2,
  entropy_via_kmer_counting_a A it1 it2 t k = Ok (a_div A (a_sub A (log_fold A l1) (log_fold A l2)) (a_of A (length t)), length t) /\
  (list_sum l1 = length t - k + 1 /\ length l1 <= length t - k + 1 /\ Forall (fun c => 1 <= c) l1 /\ sumR (map clg l1) = dsum (keys t k (length t - k + 1))) /\
  (list_sum l2 = length t - k /\ length l2 <= length t - k /\ Forall (fun c => 1 <= c) l2 /\ sumR (map clg l2) = dsum (keys t (k + 1) (length t - k))).
Proof.
  intros HB Hk Hl P1 P2. unfold entropy_via_kmer_counting_a. rewrite kmer_prefix_loop by auto. cbn [bind].
  pose proof (kmer_main_loop t k HB Hk (skipn k t) k (le_n _) eq_refl Hl) as E.
  replace (bumps (keyvals t k (k - k))) with (@nil (N * nat)) in E by now rewrite Nat.sub_diag.
  replace (bumps (keyvals t (k + 1) (k - k))) with (@nil (N * nat)) in E by now rewrite Nat.sub_diag.
  cbv zeta in E. rewrite E. clear E. cbn [bind].
  pose proof (incr8 t k (length t) (keyvals t k (length t - k)) HB Hk Hl (le_n _)) as E8. rewrite firstn_all in E8. rewrite E8. cbn [bind]. rewrite <- keyvals_snoc.
  exists (counters (it1 (bumps (keyvals t k (S (length t - k)))))), (counters (it2 (bumps (keyvals t (k + 1) (length t - k))))).
  split; [rewrite !log_sum_a_fold; reflexivity|].
  assert (KL : forall j n, length (keyvals t j n) = n) by (intros; unfold keyvals; now rewrite map_length, seq_length).
  assert (CL : forall m, length (counters m) = length m) by (intros; apply map_length).
  split.
  - destruct (counters_perm _ _ (P1 (bumps (keyvals t k (S (length t - k)))))) as (C1 & C2 & C3). rewrite KL in *. rewrite (CL (_ (bumps _))).
    split; [lia|]. split; [lia|]. split; [exact C3|].
    rewrite Nat.add_1_r. rewrite <- (log_sum_keys t k (S (length t - k)) _ HB ltac:(lia) (P1 _)). rewrite log_sum_ok. unfold counters. now rewrite map_map.
  - destruct (counters_perm _ _ (P2 (bumps (keyvals t (k + 1) (length t - k))))) as (C1 & C2 & C3). rewrite KL in *. rewrite (CL (_ (bumps _))).
    split; [lia|]. split; [lia|]. split; [exact C3|].
    rewrite <- (log_sum_keys t (k + 1) (length t - k) _ HB ltac:(lia) (P2 _)). rewrite log_sum_ok. unfold counters. now rewrite map_map.
Qed.
