(** EntropyProof3.v : entropy_via_kmer_counting *)
From Verif Require Import Base SpecStr SpecIo SpecEntropy LexFacts PermFacts ModelIo ModelCore ModelEntropy EntropyProof EntropyProof2.
From Coq Require Import NArith Reals Lra.

(** ** the ring buffer *)
Definition val (l : str) : N := fold_left (fun a c => (256 * a + N.of_nat c)%N) l 0%N.
Lemma val_snoc l c : val (l ++ [c]) = (256 * val l + N.of_nat c)%N.
Proof. unfold val. now rewrite fold_left_app. Qed.
Lemma val_app l w : val (l ++ w) = (val l * 256 ^ N.of_nat (length w) + val w)%N.
Proof.
  induction w as [|c w IH] using rev_ind; [simpl; rewrite app_nil_r; unfold val at 3; simpl; lia|].
  rewrite app_assoc, !val_snoc, IH, app_length, Nat2N.inj_add, N.pow_add_r. simpl (N.of_nat (length [c])). lia.
Qed.
Lemma val_bound w : bytes w -> (val w < 256 ^ N.of_nat (length w))%N.
Proof.
  intros HB. induction w as [|c w IH] using rev_ind; [reflexivity|].
  apply Forall_app in HB. destruct HB as (H1 & H2). inversion H2; subst. specialize (IH H1).
  rewrite val_snoc, app_length, Nat2N.inj_add, N.pow_add_r. simpl (N.of_nat (length [c])). lia.
Qed.
Lemma val_inj w w' : bytes w -> bytes w' -> length w = length w' -> val w = val w' -> w = w'.
Proof.
  revert w'. induction w as [|c w IH] using rev_ind; intros w' HB HB' L E.
  - destruct w'; [reflexivity|discriminate].
  - destruct w' as [|c' w' _] using rev_ind; [rewrite app_length in L; simpl in L; lia|].
    rewrite !app_length in L. simpl in L. apply Forall_app in HB, HB'. destruct HB as (H1 & H2), HB' as (H3 & H4).
    inversion H2; inversion H4; subst. rewrite !val_snoc in E.
    assert (val w = val w' /\ c = c') as (E1 & ->) by lia. f_equal. apply IH; auto. lia.
Qed.

Lemma lor_byte x b : b < 256 -> N.lor (256 * x) (N.of_nat b) = (256 * x + N.of_nat b)%N.
Proof.
  intros Hb. assert (H : N.land (256 * x) (N.of_nat b) = 0%N).
  { apply N.bits_inj. intros i. rewrite N.land_spec, N.bits_0.
    replace (256 * x)%N with (N.shiftl x 8) by (rewrite N.shiftl_mul_pow2; change (2 ^ 8)%N with 256%N; lia).
    destruct (N.lt_ge_cases i 8) as [C|C].
    - rewrite N.shiftl_spec_low by exact C. reflexivity.
    - destruct (N.eq_dec (N.of_nat b) 0) as [->|Nz]; [rewrite N.bits_0; apply andb_false_r|].
      rewrite (N.bits_above_log2 (N.of_nat b)); [apply andb_false_r|].
      apply (N.lt_le_trans _ 8); [|exact C]. apply N.log2_lt_pow2; [lia|]. change (2 ^ 8)%N with 256%N. lia. }
  rewrite <- N.lxor_lor by exact H. symmetry. now apply N.add_nocarry_lxor.
Qed.
Lemma push_byte_ok p b : b < 256 -> push_byte (val p mod 2 ^ 64) b = (val (p ++ [b]) mod 2 ^ 64)%N.
Proof.
  intros Hb. unfold push_byte. rewrite val_snoc, N.shiftl_mul_pow2. change (2 ^ 8)%N with 256%N.
  change 18446744073709551616%N with (2 ^ 64)%N.
  replace (((val p mod 2 ^ 64) * 256) mod 2 ^ 64)%N with (256 * (val p mod 2 ^ 56))%N.
  - rewrite lor_byte by exact Hb. change (2 ^ 64)%N with (256 * 2 ^ 56)%N.
    pose proof (N.mod_lt (val p) (2 ^ 56) ltac:(discriminate)) as B. pose proof (N.div_mod (val p) (2 ^ 56) ltac:(discriminate)) as D.
    set (q := (val p / 2 ^ 56)%N) in *. set (r := (val p mod 2 ^ 56)%N) in *. rewrite D.
    apply (N.mod_unique _ _ q); [|].
    + change (2 ^ 56)%N with 72057594037927936%N in *. lia.
    + lia.
  - rewrite N.mul_mod_idemp_l by discriminate. rewrite (N.mul_comm (val p) 256).
    change (2 ^ 64)%N with (256 * 2 ^ 56)%N. symmetry. apply N.mul_mod_distr_l; discriminate.
Qed.

Lemma mask8 k : 1 <= k <= 7 -> kmer_mask 8 k = Ok (N.ones (8 * N.of_nat k)).
Proof. intros H. assert (k = 1 \/ k = 2 \/ k = 3 \/ k = 4 \/ k = 5 \/ k = 6 \/ k = 7) as E by lia. repeat (destruct E as [->|E]; [reflexivity|]). subst k. reflexivity. Qed.
Lemma mask7 k : 1 <= k <= 7 -> kmer_mask 7 k = Ok (N.ones (8 * N.of_nat (k + 1))).
Proof. intros H. assert (k = 1 \/ k = 2 \/ k = 3 \/ k = 4 \/ k = 5 \/ k = 6 \/ k = 7) as E by lia. repeat (destruct E as [->|E]; [reflexivity|]). subst k. reflexivity. Qed.

Lemma land_suffix p w m : bytes w -> m = length w -> m <= 8 ->
  N.land (val (p ++ w) mod 2 ^ 64) (N.ones (8 * N.of_nat m)) = val w.
Proof.
  intros HB -> Hm. rewrite N.land_ones.
  assert (E8 : forall x, (2 ^ (8 * x) = 256 ^ x)%N) by (intros; rewrite N.pow_mul_r; reflexivity).
  assert (E64 : (2 ^ 64 = 256 ^ (8 - N.of_nat (length w)) * 256 ^ N.of_nat (length w))%N).
  { rewrite <- N.pow_add_r. replace (8 - N.of_nat (length w) + N.of_nat (length w))%N with 8%N by lia. reflexivity. }
  rewrite E8, E64. rewrite (N.mul_comm (256 ^ _)).
  assert (P : (256 ^ N.of_nat (length w) <> 0)%N) by (apply N.pow_nonzero; discriminate).
  assert (Q : (256 ^ (8 - N.of_nat (length w)) <> 0)%N) by (apply N.pow_nonzero; discriminate).
  set (B := (256 ^ N.of_nat (length w))%N) in *. set (A := (256 ^ (8 - N.of_nat (length w)))%N) in *.
  rewrite N.mod_mul_r by auto. rewrite (N.mul_comm B). rewrite N.mod_add, N.mod_mod by auto.
  rewrite val_app. fold B. rewrite N.add_comm, N.mod_add by auto. apply N.mod_small. unfold B. now apply val_bound.
Qed.

(** ** the hash maps *)
Definition bumps (l : list N) : list (N * nat) := fold_left (fun m x => bump x m) l [].
Lemma bump_spec x m : NoDup (map fst m) -> NoDup (map fst (bump x m)) /\
  (forall y, In y (map fst (bump x m)) <-> y = x \/ In y (map fst m)) /\
  (forall y c, In (y, c) (bump x m) -> (y <> x /\ In (y, c) m) \/ (y = x /\ (c = 1 /\ ~ In x (map fst m) \/ exists c', In (x, c') m /\ c = c' + 1))).
Proof.
  induction m as [|(z, d) m IH]; intros ND; simpl in *.
  - split; [repeat constructor; auto|]. split; [intuition|]. intros y c [H|[]]. injection H as <- <-. right. auto.
  - inversion ND as [|? ? Nz ND']; subst. destruct (IH ND') as (I1 & I2 & I3). destruct (N.eqb_spec z x) as [->|N]; simpl.
    + split; [exact ND|]. split; [intuition congruence|]. intros y c [H|H].
      * injection H as <- <-. right. split; auto. right. exists d. auto.
      * left. split; [|now right]. intros ->. apply Nz. apply in_map_iff. exists (x, c). auto.
    + split; [constructor; auto; rewrite I2; intuition congruence|]. split; [intros y; rewrite I2; intuition congruence|].
      intros y c [H|H].
      * injection H as <- <-. left. auto.
      * destruct (I3 y c H) as [(A & B)|(-> & [(A & B)|(c' & A & B)])].
        -- left. auto.
        -- right. split; auto. left. split; auto. intros [C|C]; congruence.
        -- right. split; auto. right. eauto.
Qed.
Lemma bumps_spec l : NoDup (map fst (bumps l)) /\ (forall y, In y (map fst (bumps l)) <-> In y l) /\
  forall y c, In (y, c) (bumps l) -> c = count_occ N.eq_dec l y.
Proof.
  induction l as [|x l IH] using rev_ind; [simpl; split; [constructor|split; intuition]|].
  unfold bumps in *. rewrite fold_left_app. cbn [fold_left]. destruct IH as (I1 & I2 & I3).
  destruct (bump_spec x _ I1) as (B1 & B2 & B3). split; [exact B1|]. split.
  - intros y. rewrite B2, I2, in_app_iff. simpl. intuition.
  - intros y c H. rewrite count_occ_app. cbn [count_occ]. destruct (B3 y c H) as [(A & B)|(-> & [(A & B)|(c' & A & B)])].
    + destruct (N.eq_dec x y); [congruence|]. rewrite (I3 _ _ B). lia.
    + destruct (N.eq_dec x x); [|contradiction]. rewrite I2 in B. apply (count_occ_not_In N.eq_dec) in B. lia.
    + destruct (N.eq_dec x x); [|contradiction]. rewrite (I3 _ _ A) in B. lia.
Qed.

(** c lg c *)
Definition clg (c : nat) : R := (INR c * lg (INR c))%R.
Lemma clg_1 : clg 1 = 0%R.
Proof. unfold clg. simpl. rewrite lg_1. lra. Qed.

Lemma log_sum_ok m : log_sum m = sumR (map (fun kc => clg (snd kc)) m).
Proof.
  unfold log_sum. assert (G : forall m s, fold_left (fun s kc => (s + INR (snd kc) * log2 (INR (snd kc)))%R) m s =
     (s + sumR (map (fun kc : N * nat => clg (snd kc)) m))%R).
  { induction m0 as [|x m0 IH]; intros s; simpl; [unfold sumR; simpl; lra|]. rewrite IH. unfold sumR, clg, lg, log2. simpl. lra. }
  rewrite G. lra.
Qed.
Lemma log_sum_bumps l m : Permutation m (bumps l) ->
  log_sum m = sumR (map (fun x => clg (count_occ N.eq_dec l x)) (nodup N.eq_dec l)).
Proof.
  intros HP. rewrite log_sum_ok, (sumR_perm _ _ (Permutation_map _ HP)). destruct (bumps_spec l) as (B1 & B2 & B3).
  rewrite (sumR_map_ext _ (fun kc => clg (count_occ N.eq_dec l (fst kc)))).
  - rewrite <- (map_map fst (fun x => clg (count_occ N.eq_dec l x))). apply (sumR_set N.eq_dec); auto; [apply NoDup_nodup|].
    intros x. now rewrite B2, nodup_In.
  - intros (x, c) H. simpl. now rewrite (B3 _ _ H).
Qed.

Lemma sum_inj (g : str -> N) (lw : list str) : (forall u v, In u lw -> In v lw -> g u = g v -> u = v) ->
  sumR (map (fun x => clg (count_occ N.eq_dec (map g lw) x)) (nodup N.eq_dec (map g lw))) =
  sumR (map (fun w => clg (count_occ strdec lw w)) (nodup strdec lw)).
Proof.
  intros Hinj.
  assert (HC : forall w l, In w lw -> incl l lw -> count_occ N.eq_dec (map g l) (g w) = count_occ strdec l w).
  { intros w l Hw. induction l as [|u l IH]; intros HI; simpl; auto.
    destruct (N.eq_dec (g u) (g w)) as [E|E], (strdec u w) as [E'|E']; subst; auto.
    - f_equal. apply IH. intros x Hx. apply HI. now right.
    - exfalso. apply E'. apply Hinj; auto. apply HI. now left.
    - contradiction.
    - apply IH. intros x Hx. apply HI. now right. }
  rewrite (sumR_set N.eq_dec _ (nodup N.eq_dec (map g lw)) (map g (nodup strdec lw))).
  - rewrite map_map. apply sumR_map_ext. intros w Hw. apply nodup_In in Hw. f_equal. apply HC; auto. apply incl_refl.
  - apply NoDup_nodup.
  - assert (G : forall l, incl l lw -> NoDup l -> NoDup (map g l)).
    { induction l as [|u l IH]; intros HI ND; simpl; [constructor|]. inversion ND as [|? ? Hu ND']; subst. constructor.
      - intros Hin. apply in_map_iff in Hin. destruct Hin as (v & E & Hv). apply Hu.
        rewrite (Hinj u v); auto; apply HI; [now left|now right].
      - apply IH; auto. intros x Hx. apply HI. now right. }
    apply G; [|apply NoDup_nodup]. intros x Hx. now apply nodup_In in Hx.
  - intros x. rewrite nodup_In, !in_map_iff. split; intros (w & E & H); exists w; (split; [exact E|]); now apply (nodup_In strdec).
Qed.

(** ** the loops *)
Lemma key_bytes t k i : bytes t -> bytes (key t k i).
Proof.
  intros HB. unfold key, bytes in *. rewrite <- (firstn_skipn i t) in HB. apply Forall_app in HB. destruct HB as (_ & HB).
  rewrite <- (firstn_skipn k (skipn i t)) in HB. now apply Forall_app in HB.
Qed.

Lemma firstn_key t k m : k <= m -> m <= length t -> firstn m t = firstn (m - k) t ++ key t k (m - k).
Proof.
  intros H1 H2. unfold key. rewrite <- (firstn_skipn (m - k) (firstn m t)) at 1.
  rewrite firstn_firstn, Nat.min_l by lia. f_equal. rewrite skipn_firstn_comm. f_equal. lia.
Qed.

Lemma kmer_prefix_loop t k : bytes t -> k <= length t ->
  for_in (range 0 k) (fun _ '(ringbuf, rest) =>
      match rest with
      | [] => Panic
      | b :: rest' => Ok (push_byte ringbuf b, rest')
      end) (0%N, t) = Ok ((val (firstn k t) mod 2 ^ 64)%N, skipn k t).
Proof.
  intros HB Hk. unfold range. rewrite Nat.sub_0_r.
  assert (G : forall j i, i + j <= length t -> for_in (seq i j) (fun _ '(ringbuf, rest) =>
      match rest with
      | [] => Panic
      | b :: rest' => Ok (push_byte ringbuf b, rest')
      end) ((val (firstn i t) mod 2 ^ 64)%N, skipn i t) = Ok ((val (firstn (i + j) t) mod 2 ^ 64)%N, skipn (i + j) t)).
  { induction j as [|j IH]; intros i Hi; cbn [seq for_in]; [now rewrite Nat.add_0_r|].
    rewrite (skipn_cons_nth t i 0) by lia. cbn [bind].
    rewrite push_byte_ok by (unfold bytes in HB; rewrite Forall_forall in HB; apply HB, nth_In; lia).
    rewrite <- firstn_snoc_nth by lia. rewrite IH by lia. now rewrite Nat.add_succ_comm. }
  exact (G k 0 Hk).
Qed.
Lemma kmer_prefix_panic t k : length t < k ->
  for_in (range 0 k) (fun _ '(ringbuf, rest) =>
      match rest with
      | [] => Panic
      | b :: rest' => Ok (push_byte ringbuf b, rest')
      end) (0%N, t) = Panic.
Proof.
  unfold range. rewrite Nat.sub_0_r. generalize 0 at 1. generalize 0%N. revert t.
  induction k as [|k IH]; intros t r i H; [lia|]. cbn [seq for_in]. destruct t as [|b t]; [reflexivity|]. cbn [bind].
  apply IH. simpl in H. lia.
Qed.

Definition keyvals (t : str) (k n : nat) : list N := map (fun i => val (key t k i)) (seq 0 n).
Lemma bumps_snoc l x : bump x (bumps l) = bumps (l ++ [x]).
Proof. unfold bumps. now rewrite fold_left_app. Qed.
Lemma keyvals_snoc t k n : keyvals t k (S n) = keyvals t k n ++ [val (key t k n)].
Proof. unfold keyvals. rewrite seq_S, map_app. reflexivity. Qed.

Lemma key_full t k i : i + k <= length t -> length (key t k i) = k.
Proof. intros H. unfold key. rewrite firstn_length, skipn_length. lia. Qed.

Lemma incr8 t k m l : bytes t -> 1 <= k <= 7 -> k <= m -> m <= length t ->
  increment 8 k (val (firstn m t) mod 2 ^ 64) (bumps l) = Ok (bumps (l ++ [val (key t k (m - k))])).
Proof.
  intros HB Hk H1 H2. unfold increment. rewrite mask8 by exact Hk. cbn [bind].
  rewrite (firstn_key t k m) by lia.
  rewrite land_suffix; [|now apply key_bytes|symmetry; apply key_full; lia|lia]. now rewrite bumps_snoc.
Qed.
Lemma incr7 t k m l : bytes t -> 1 <= k <= 7 -> k + 1 <= m -> m <= length t ->
  increment 7 k (val (firstn m t) mod 2 ^ 64) (bumps l) = Ok (bumps (l ++ [val (key t (k + 1) (m - (k + 1)))])).
Proof.
  intros HB Hk H1 H2. unfold increment. rewrite mask7 by exact Hk. cbn [bind].
  rewrite (firstn_key t (k + 1) m) by lia.
  rewrite land_suffix; [|now apply key_bytes|symmetry; apply key_full; lia|lia]. now rewrite bumps_snoc.
Qed.

Lemma kmer_main_loop t k : bytes t -> 1 <= k <= 7 -> forall rest m, k <= m -> rest = skipn m t -> m <= length t ->
  for_in rest (fun byte '(ringbuf, kmers, kplusmers, count) =>
      kmers <- increment 8 k ringbuf kmers ;;
      let ringbuf := push_byte ringbuf byte in
      kplusmers <- increment 7 k ringbuf kplusmers ;;
      Ok (ringbuf, kmers, kplusmers, count + 1))
   ((val (firstn m t) mod 2 ^ 64)%N, bumps (keyvals t k (m - k)), bumps (keyvals t (k + 1) (m - k)), m)
  = Ok ((val t mod 2 ^ 64)%N, bumps (keyvals t k (length t - k)), bumps (keyvals t (k + 1) (length t - k)), length t).
Proof.
  intros HB Hk. induction rest as [|b rest IH]; intros m Hm E Hl.
  - assert (Em : m = length t).
    { apply (f_equal (@length nat)) in E. rewrite skipn_length in E. simpl in E. lia. }
    subst m. cbn [for_in]. now rewrite firstn_all.
  - assert (Lm : m < length t).
    { apply (f_equal (@length nat)) in E. rewrite skipn_length in E. simpl in E. lia. }
    rewrite (skipn_cons_nth t m 0) in E by exact Lm. injection E as -> E.
    cbn [for_in]. rewrite incr8 by (auto; lia). cbn [bind].
    rewrite push_byte_ok by (unfold bytes in HB; rewrite Forall_forall in HB; apply HB, nth_In; lia).
    rewrite <- firstn_snoc_nth by lia. rewrite incr7 by (auto; lia). cbn [bind].
    rewrite <- keyvals_snoc. replace (S m - (k + 1)) with (m - k) by lia. rewrite <- keyvals_snoc.
    replace (S (m - k)) with (S m - k) by lia. rewrite (Nat.add_1_r m). apply IH; auto; lia.
Qed.

Definition keys (t : str) (k n : nat) : list str := map (key t k) (seq 0 n).
Definition dsum (lw : list str) : R := sumR (map (fun w => clg (count_occ strdec lw w)) (nodup strdec lw)).

Lemma log_sum_keys t k n m : bytes t -> n + k <= length t + 1 -> Permutation m (bumps (keyvals t k n)) ->
  log_sum m = dsum (keys t k n).
Proof.
  intros HB Hn HP. rewrite (log_sum_bumps _ _ HP). unfold dsum, keyvals. rewrite <- (map_map (key t k) val).
  apply sum_inj. intros u v Hu Hv. apply in_map_iff in Hu, Hv. destruct Hu as (i & <- & Hi), Hv as (j & <- & Hj).
  apply in_seq in Hi, Hj. apply val_inj; try apply key_bytes; auto. rewrite !key_full by lia. reflexivity.
Qed.

Lemma kmer_counting_ok it1 it2 t k : bytes t -> 1 <= k <= 7 -> k <= length t ->
  (forall m, Permutation (it1 m) m) -> (forall m, Permutation (it2 m) m) ->
  entropy_via_kmer_counting it1 it2 t k =
  Ok (Some ((dsum (keys t k (length t - k + 1)) - dsum (keys t (k + 1) (length t - k))) / INR (length t))%R, length t).
Proof.
  intros HB Hk Hl P1 P2. unfold entropy_via_kmer_counting. rewrite kmer_prefix_loop by auto. cbn [bind].
  pose proof (kmer_main_loop t k HB Hk (skipn k t) k (le_n _) eq_refl Hl) as E.
  replace (bumps (keyvals t k (k - k))) with (@nil (N * nat)) in E by now rewrite Nat.sub_diag.
  replace (bumps (keyvals t (k + 1) (k - k))) with (@nil (N * nat)) in E by now rewrite Nat.sub_diag.
  cbv zeta in E. rewrite E. clear E. cbn [bind]. rewrite <- (firstn_all t) at 1.
  rewrite incr8 by (auto; lia). cbn [bind]. rewrite <- keyvals_snoc.
  rewrite (log_sum_keys t k (S (length t - k))) by (auto; lia).
  rewrite (log_sum_keys t (k + 1) (length t - k)) by (auto; lia).
  unfold f_div. destruct (Nat.eqb_spec (length t) 0); [lia|]. rewrite <- Nat.add_1_r. reflexivity.
Qed.

(** ** from the counts to the entropy *)
Lemma count_keys t k l w : count_occ strdec (map (key t k) l) w = length (gsel t k l w).
Proof.
  induction l as [|i l IH]; simpl; auto. unfold gsel in *. cbn [filter].
  destruct (strdec (key t k i) w) as [E|E].
  - rewrite (proj2 (eqb_str_eq _ _) E). simpl. now rewrite IH.
  - destruct (eqb_str (key t k i) w) eqn:E'; [apply eqb_str_eq in E'; contradiction|exact IH].
Qed.

Lemma contexts_ex t k : exists W, contexts t k W.
Proof.
  exists (nodup strdec (map (key t k) (seq 0 (length t - k)))). split; [apply NoDup_nodup|].
  intros w. rewrite nodup_In, in_map_iff. split.
  - intros (i & <- & Hi). apply in_seq in Hi. rewrite key_full by lia. split; auto. exists i.
    unfold context_at, occurs_at. rewrite key_full by lia. split; [split; [lia|reflexivity]|lia].
  - intros (L & i & (O1 & O2) & O3). rewrite L in *. exists i. split; [exact O2|]. apply in_seq. lia.
Qed.

Section COUNTS.
Context (s : str) (k : nat).
Context (Hz : Forall (fun x => x <> 0) s) (HB : bytes s) (Hk : 0 < k).
Let t := s ++ [0].
Context (W : list str) (HW : contexts t k W) (Hl : k <= length t).

Lemma sel_trim w : length w = k -> gsel t k (seq 0 (length t)) w = gsel t k (seq 0 (length t - k + 1)) w.
Proof.
  intros Lw. replace (length t) with ((length t - k + 1) + (k - 1)) at 1 by lia. rewrite seq_app. unfold gsel.
  rewrite filter_app. fold (gsel t k (seq (0 + (length t - k + 1)) (k - 1)) w).
  rewrite (gsel_none t k (seq (0 + (length t - k + 1)) (k - 1))), app_nil_r; auto.
  intros i Hi E. apply in_seq in Hi. apply (f_equal (@length nat)) in E. unfold key in E. rewrite firstn_length, skipn_length in E. lia.
Qed.

Lemma kmers_sum : dsum (keys t k (length t - k + 1)) = sumR (map (fun w => clg (length (followers t w))) W).
Proof.
  destruct HW as (NW & HI). unfold dsum, keys.
  rewrite (sumR_support strdec _ _ W).
  - apply sumR_map_ext. intros w Hw. apply HI in Hw. destruct Hw as (Lw & Hc). f_equal.
    rewrite count_keys. unfold t. rewrite (followers_sel s k Hz Hk w Lw Hc), map_length. fold t. now rewrite sel_trim.
  - apply NoDup_nodup.
  - exact NW.
  - intros w Hw. apply HI in Hw. destruct Hw as (Lw & i & (O1 & O2) & O3). rewrite Lw in *. apply nodup_In, in_map_iff.
    exists i. split; [exact O2|]. apply in_seq. lia.
  - intros w Hw Hn. apply nodup_In, in_map_iff in Hw. destruct Hw as (i & E & Hi). apply in_seq in Hi.
    rewrite count_keys. rewrite <- clg_1. f_equal.
    destruct (gsel t k (seq 0 (length t - k + 1)) w) as [|a [|b g]] eqn:EG; auto.
    + exfalso. assert (In i []); [|easy]. rewrite <- EG. unfold gsel. apply filter_In. split; [apply in_seq; lia|].
      now apply eqb_str_eq.
    + exfalso. apply Hn. apply HI.
      assert (Hab : a <> b).
      { pose proof (NoDup_filter (fun i => eqb_str (key t k i) w) (seq_NoDup (length t - k + 1) 0)) as ND.
        fold (gsel t k (seq 0 (length t - k + 1)) w) in ND. rewrite EG in ND. inversion ND; subst. simpl in *. intuition. }
      assert (Ha : In a (gsel t k (seq 0 (length t - k + 1)) w)) by (rewrite EG; now left).
      assert (Hb : In b (gsel t k (seq 0 (length t - k + 1)) w)) by (rewrite EG; right; now left).
      unfold gsel in Ha, Hb. apply filter_In in Ha, Hb. destruct Ha as (A1 & A2), Hb as (B1 & B2).
      apply in_seq in A1, B1. apply eqb_str_eq in A2, B2.
      assert (Lw : length w = k) by (rewrite <- A2; apply key_full; lia). split; [exact Lw|]. exists a.
      unfold context_at, occurs_at. rewrite Lw. split; [split; [lia|exact A2]|].
      apply (key_eq_valid s k Hz Hk a b); auto; fold t; try lia. congruence.
Qed.

Lemma key_succ i : i + k < length t -> key t (k + 1) i = key t k i ++ [follow t k i].
Proof.
  intros H. unfold key, follow. rewrite Nat.add_1_r, (firstn_snoc_nth (skipn i t) k 0) by (rewrite skipn_length; lia).
  now rewrite nth_skipn.
Qed.

Lemma count_follow (P : nat -> bool) (f : nat -> nat) c l :
  count_occ Nat.eq_dec (map f (filter P l)) c = length (filter (fun i => P i && (f i =? c)) l).
Proof.
  induction l as [|i l IH]; simpl; auto. destruct (P i); simpl; auto.
  destruct (Nat.eq_dec (f i) c) as [->|N]; simpl.
  - rewrite Nat.eqb_refl. simpl. now rewrite IH.
  - destruct (Nat.eqb_spec (f i) c); [contradiction|exact IH].
Qed.

Lemma count_kplus w c : length w = k -> (exists i, context_at t w i) ->
  count_occ strdec (keys t (k + 1) (length t - k)) (w ++ [c]) = occ (followers t w) c.
Proof.
  intros Lw Hc. unfold keys. rewrite count_keys. unfold occ, t. rewrite (followers_sel s k Hz Hk w Lw Hc). fold t.
  rewrite sel_trim by exact Lw. unfold gsel. rewrite count_follow. rewrite (Nat.add_1_r (length t - k)), seq_S, filter_app, app_length.
  cbn [filter Nat.add].
  assert (Elast : eqb_str (key t k (length t - k)) w = false).
  { destruct (eqb_str (key t k (length t - k)) w) eqn:E; auto. apply eqb_str_eq in E. exfalso.
    destruct Hc as (i & (O1 & O2) & O3). rewrite Lw in *.
    assert (length t - k + k < length t); [|lia]. apply (key_eq_valid s k Hz Hk (length t - k) i); fold t; try lia.
    rewrite E. symmetry. exact O2. }
  rewrite Elast. cbn [andb length]. rewrite Nat.add_0_r. f_equal. apply filter_ext_in. intros i Hi. apply in_seq in Hi.
  rewrite key_succ by lia.
  destruct (eqb_str (key t k i) w) eqn:E1; cbn [andb].
  - apply eqb_str_eq in E1. rewrite E1. destruct (Nat.eqb_spec (follow t k i) c) as [->|N].
    + now apply eqb_str_eq.
    + apply not_true_is_false. intros E. apply eqb_str_eq in E. apply app_inj_tail in E. tauto.
  - apply not_true_is_false. intros E. apply eqb_str_eq in E. apply app_inj_tail in E. destruct E as (E & _).
    apply eqb_str_eq in E. congruence.
Qed.

Lemma sumR_flat_map {A B} (f : B -> R) (g : A -> list B) l :
  sumR (map f (flat_map g l)) = sumR (map (fun a => sumR (map f (g a))) l).
Proof.
  induction l as [|a l IH]; simpl; auto. rewrite map_app, sumR_app, IH. reflexivity.
Qed.

Lemma kplusmers_sum : dsum (keys t (k + 1) (length t - k)) =
  sumR (map (fun w => sumR (map (fun c => clg (occ (followers t w) c)) (nodup Nat.eq_dec (followers t w)))) W).
Proof.
  destruct HW as (NW & HI). unfold dsum.
  set (L := flat_map (fun w => map (fun c => w ++ [c]) (nodup Nat.eq_dec (followers t w))) W).
  rewrite (sumR_set strdec _ (nodup strdec (keys t (k + 1) (length t - k))) L).
  - unfold L. rewrite sumR_flat_map. apply sumR_map_ext. intros w Hw. apply HI in Hw. destruct Hw as (Lw & Hc).
    rewrite map_map. apply sumR_map_ext. intros c _. now rewrite count_kplus.
  - apply NoDup_nodup.
  - unfold L. clear HI HW L. induction NW as [|w W' Hw NW IH]; simpl; [constructor|].
    assert (N1 : NoDup (map (fun c => w ++ [c]) (nodup Nat.eq_dec (followers t w)))).
    { apply FinFun.Injective_map_NoDup; [|apply NoDup_nodup]. intros c d E. now apply app_inj_tail in E. }
    assert (N2 : forall x, In x (map (fun c => w ++ [c]) (nodup Nat.eq_dec (followers t w))) ->
      ~ In x (flat_map (fun w => map (fun c => w ++ [c]) (nodup Nat.eq_dec (followers t w))) W')).
    { intros x Hx Hx'. apply in_map_iff in Hx. destruct Hx as (c & <- & _). apply in_flat_map in Hx'.
      destruct Hx' as (w' & Hw' & Hx'). apply in_map_iff in Hx'. destruct Hx' as (c' & E & _). apply app_inj_tail in E.
      destruct E as (-> & _). contradiction. }
    revert IH N1 N2. generalize (flat_map (fun w => map (fun c => w ++ [c]) (nodup Nat.eq_dec (followers t w))) W').
    generalize (map (fun c => w ++ [c]) (nodup Nat.eq_dec (followers t w))). clear.
    intros l1 l2 N2 N1 H. induction N1 as [|x l Hx N1 IH]; simpl; auto. constructor.
    + intros Hin. apply in_app_iff in Hin. destruct Hin; [contradiction|]. apply (H x); simpl; auto.
    + apply IH. intros y Hy. apply H. now right.
  - intros x. rewrite nodup_In. unfold L, keys. rewrite in_map_iff, in_flat_map. split.
    + intros (i & <- & Hi). apply in_seq in Hi. exists (key t k i).
      assert (Lw : length (key t k i) = k) by (apply key_full; lia).
      assert (Hc : context_at t (key t k i) i).
      { unfold context_at, occurs_at. rewrite Lw. split; [split; [lia|reflexivity]|lia]. }
      split; [apply HI; eauto|]. apply in_map_iff. exists (follow t k i). split; [symmetry; apply key_succ; lia|].
      apply nodup_In. pose proof (followers_sel s k Hz Hk (key t k i) Lw (ex_intro _ i Hc)) as FS. fold t in FS. rewrite FS. apply in_map.
      unfold gsel. apply filter_In. split; [apply in_seq; lia|]. now apply eqb_str_eq.
    + intros (w & Hw & Hx). apply in_map_iff in Hx. destruct Hx as (c & <- & Hc). apply nodup_In in Hc.
      apply HI in Hw. destruct Hw as (Lw & Hcx).
      pose proof (count_kplus w c Lw Hcx) as CK.
      assert (CP : 0 < occ (followers t w) c) by (apply (count_occ_In Nat.eq_dec); exact Hc).
      rewrite <- CK in CP. apply (count_occ_In strdec) in CP. unfold keys in CP. now apply in_map_iff in CP.
Qed.

Lemma counts_entropy : ((dsum (keys t k (length t - k + 1)) - dsum (keys t (k + 1) (length t - k))) / INR (length t))%R = SpecEntropy.Hk t W.
Proof.
  unfold SpecEntropy.Hk. f_equal. rewrite kmers_sum, kplusmers_sum, <- sumR_minus. apply sumR_map_ext. intros w _.
  rewrite H0_expand. reflexivity.
Qed.
End COUNTS.
