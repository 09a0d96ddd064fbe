(** PropsFloat.v : property theorems C92 - C95: the entropy programs in IEEE 754 binary64 arithmetic (Flocq). [l2] stands for
    f64::log2, about which only [log2_accurate l2 delta] is assumed (SpecLog.v); [sort] stands for cdivsufsort; [it1], [it2] give the
    iteration orders of the hash maps. roundoff = 2^-53. *)
From Verif Require Import Base SpecStr SpecIo SpecMain SpecEntropy SpecLog LexFacts PermFacts SortFacts.
From Verif Require Import ModelIo ModelCore ModelEntropy EntropyProof EntropyProof2 EntropyProof3 ModelFloat FloatFacts FloatProof FloatProof2 FloatProof3 FloatProof4 FloatProof5 FloatProof6 FloatProof7 FloatProof8 FloatLog FloatLink FloatSign MainProof2 PropsEntropy PropsEntropy2.
From Coq Require Import NArith ZArith Reals Lra.
From Flocq Require Import Core BinarySingleNaN.
Close Scope nat_scope. Open Scope R_scope.

(** bridges *)
Lemma snoc_ne (s : str) : s ++ [0%nat] <> []. Proof. intros C. apply app_eq_nil in C. easy. Qed.
Lemma small50 n : (Z.of_nat n <= 2 ^ 50)%Z -> small n. Proof. unfold small. lia. Qed.
Lemma INR50 n : (Z.of_nat n <= 2 ^ 50)%Z -> INR n * uu <= / 8.
Proof.
  intros H. rewrite INR_IZR_INZ. apply Rle_trans with (IZR (2 ^ 50) * uu); [apply Rmult_le_compat_r; [left; apply uu_pos|now apply IZR_le]|].
  change (IZR (2 ^ 50)) with (bpow radix2 50). unfold uu. rewrite <- bpow_plus. simpl. lra.
Qed.
Lemma uu300 : 300 * uu <= / 8.
Proof. apply Rle_trans with (bpow radix2 10 * uu); [apply Rmult_le_compat_r; [left; apply uu_pos|simpl; lra]|]. unfold uu. rewrite <- bpow_plus. simpl. lra. Qed.
Lemma lo_pos delta K h x : 0 <= delta <= / 4 -> 3 * uu < h -> (1 - delta) * (1 - uu) ^ K * (h - eta3) <= x -> 0 < x.
Proof.
  intros Hd Hh HX. pose proof uu_small. eapply Rlt_le_trans; [|exact HX]. unfold eta3. apply Rmult_lt_0_compat; [|lra]. apply Rmult_lt_0_compat; [lra|]. apply pow_lt. lra.
Qed.
Lemma half_u n h : (1 <= n)%nat -> (Z.of_nat n <= 2 ^ 50)%Z -> / 2 <= INR n * h -> 3 * uu < h.
Proof.
  intros Hn Hs HH. pose proof (INR_ge1 n Hn) as N1. pose proof (INR50 n Hs) as N2. pose proof uu_pos as U0. apply Rmult_lt_reg_l with (INR n); [lra|].
  eapply Rlt_le_trans; [|exact HH]. nra.
Qed.

(** C92: order 0 *)
Theorem C92_zero_order_f64 : forall l2 delta v, log2_accurate l2 delta -> 0 <= delta <= / 4 ->
  bytes v -> v <> [] -> (Z.of_nat (length v) <= 2 ^ 50)%Z ->
  exists x, zero_order_entropy_a (ieee l2) v = Ok x /\ is_finite x = true /\ 0 <= B2R x /\
    Rabs (B2R x - H0 v) <= 2 * (delta + 258 * roundoff) * H0 v + 6 * roundoff /\ (B2R x = 0 <-> H0 v = 0).
Proof.
  intros l2 delta v HL Hd HB Hne Hs. rewrite roundoff_uu. exists (zoe (ieee l2) v). rewrite zoe_ok by exact HB. split; [reflexivity|].
  assert (Hn : (1 <= length v)%nat) by (destruct v; [easy|simpl; lia]). pose proof (H0_bounds v HB Hne) as HH.
  assert (EK : exists K, K = 258%nat) by eauto. destruct EK as (K & EK). assert (IK : INR K = 258) by (rewrite EK, INR_IZR_INZ; reflexivity). rewrite <- IK.
  pose proof (zoe_appr l2 delta HL ltac:(lra) v HB Hne (small50 _ Hs) K ltac:(lia)) as (F & P & _ & _ & _ & Z). rewrite Rmult_1_r in Z.
  split; [exact F|]. split; [exact P|]. split; [|split].
  - apply abs_form; [exact Hd| |lra|exact Z]. rewrite IK. pose proof uu300. pose proof uu_pos. lra.
  - intros E. destruct (Req_dec (H0 v) 0) as [|N]; [assumption|]. exfalso. pose proof (positive_split v HB Hne N) as PS.
    pose proof (lo_pos delta K (H0 v) (B2R (zoe (ieee l2) v)) Hd (half_u _ _ Hn Hs PS) (proj1 Z)). lra.
  - intros E. apply (zoe_zero l2 delta HL v HB Hne (small50 _ Hs) E).
Qed.
Print Assumptions C92_zero_order_f64.
(** the program on a file; the text is never empty since a zero byte is appended *)
Theorem C92_program_f64 : forall l2 delta sort content p, log2_accurate l2 delta -> 0 <= delta <= / 4 ->
  let s := prefix_read content p in bytes s -> (Z.of_nat (length s) < 2 ^ 50)%Z ->
  exists x, entropy_main_a (ieee l2) sort true content p 0 = Ok x /\ is_finite x = true /\ 0 <= B2R x /\
    Rabs (B2R x - H0 (s ++ [0%nat])) <= 2 * (delta + 258 * roundoff) * H0 (s ++ [0%nat]) + 6 * roundoff /\ (B2R x = 0 <-> s = [] \/ H0 (s ++ [0%nat]) = 0).
Proof.
  intros l2 delta sort content p HL Hd s HB Hs.
  destruct (C92_zero_order_f64 l2 delta (s ++ [0%nat]) HL Hd) as (x & E & F & P & B & Z).
  - apply Forall_app. split; [exact HB|]. constructor; [lia|constructor].
  - apply snoc_ne.
  - rewrite app_length. cbn [length]. lia.
  - exists x. unfold entropy_main_a. rewrite prefix_read_ok. cbn [bind Nat.eqb]. fold s. split; [exact E|]. split; [exact F|]. split; [exact P|]. split; [exact B|].
    rewrite Z. split; [now right|]. intros [E0|H]; [|exact H]. rewrite E0. unfold H0. cbn. unfold Rdiv. rewrite !Rinv_1, !Rmult_1_r, lg_1. ring.
Qed.
Print Assumptions C92_program_f64.
(** with a correctly rounded logarithm the value is off by less than 2^-40 bits *)
Theorem C92_zero_order_close : forall l2 v, log2_accurate l2 roundoff -> bytes v -> v <> [] -> (Z.of_nat (length v) <= 2 ^ 50)%Z ->
  exists x, zero_order_entropy_a (ieee l2) v = Ok x /\ Rabs (B2R x - H0 v) <= / 2 ^ 40.
Proof.
  intros l2 v HL HB Hne Hs. pose proof uu_pos as U0. pose proof uu_small as U1.
  destruct (C92_zero_order_f64 l2 roundoff v HL ltac:(rewrite roundoff_uu; lra) HB Hne Hs) as (x & E & _ & _ & B & _). exists x. split; [exact E|].
  eapply Rle_trans; [exact B|]. pose proof (H0_bounds v HB Hne) as HH. rewrite roundoff_uu.
  apply Rle_trans with (bpow radix2 13 * uu); [|right; change 40%nat with (Z.to_nat 40); unfold uu; rewrite <- bpow_plus; change (13 + -53)%Z with (- Z.of_nat 40)%Z; rewrite bpow_opp, bpow_nat; reflexivity].
  change (bpow radix2 13) with 8192. nra.
Qed.
Print Assumptions C92_zero_order_close.
(** the hypothesis on the logarithm can be met *)
Theorem C92_log2_exists : exists l2, log2_accurate l2 roundoff.
Proof. exists log2_nearest. exact log2_nearest_accurate. Qed.
Print Assumptions C92_log2_exists.
Example C92_case : exists x, zero_order_entropy_a (ieee log2_nearest) (ascii "abracadabra") = Ok x /\ Rabs (B2R x - H0 (ascii "abracadabra")) <= / 2 ^ 40.
Proof. apply C92_zero_order_close; [exact log2_nearest_accurate| |discriminate|vm_compute; discriminate]. repeat constructor; lia. Qed.

(** C93: higher orders *)
Theorem C93_kth_order_f64 : forall l2 delta sort s k W, log2_accurate l2 delta -> 0 <= delta <= / 4 -> (forall t, is_suffix_array t (sort t)) ->
  s <> [] -> bytes s -> ~ In 0%nat s -> (1 <= k)%nat -> contexts (s ++ [0%nat]) k W ->
  let n := length (s ++ [0%nat]) in (Z.of_nat n <= 2 ^ 50)%Z ->
  exists x, kth_order_entropy_a (ieee l2) sort (s ++ [0%nat]) k = Ok x /\ is_finite x = true /\ 0 <= B2R x /\
    Rabs (B2R x - Hk (s ++ [0%nat]) W) <= 2 * (delta + (INR n + 260) * roundoff) * Hk (s ++ [0%nat]) W + 6 * roundoff /\
    (B2R x = 0 <-> Hk (s ++ [0%nat]) W = 0).
Proof.
  intros l2 delta sort s k W HL Hd HSo Hne HB Hz HkP HW n Hs. rewrite roundoff_uu. set (t := s ++ [0%nat]) in *.
  assert (Hn : (1 <= n)%nat) by (unfold n, t; rewrite app_length; simpl; lia).
  assert (Hs0 : (0 < length s)%nat) by (destruct s; [easy|simpl; lia]).
  destruct (kth_a_ok (ieee l2) s k (sort t) (zero_free s Hz) HB ltac:(lia) (HSo t) sort eq_refl Hs0) as (gs & E & F & S1 & LC). fold t in E, F, S1, LC. fold n in LC, E.
  eexists. split; [exact E|].
  pose proof (gsum_contexts s k (sort t) (zero_free s Hz) ltac:(lia) (HSo t) W HW) as GC. fold t in GC.
  assert (EH : sumR (map (gF t k) gs) / INR n = Hk t W) by (rewrite S1, GC; reflexivity).
  assert (N1 := INR_ge1 n Hn).
  assert (ES : sumR (map (gF t k) gs) = INR n * Hk t W) by (rewrite <- EH; field; lra).
  assert (EK : exists K, K = (n + 260)%nat) by eauto. destruct EK as (K & EK).
  assert (IK : INR K = INR n + 260) by (rewrite EK, plus_INR; f_equal; rewrite INR_IZR_INZ; reflexivity). rewrite <- IK.
  pose proof (groups_appr l2 delta HL ltac:(lra) t k gs n K F Hn LC (small50 _ Hs) ltac:(lia)) as (G1 & G2 & G3). rewrite EH in G3.
  assert (HH : 0 <= Hk t W). { destruct (Req_dec (Hk t W) 0) as [->|N]; [lra|]. pose proof (groups_half t k gs F) as GH. rewrite ES in GH. specialize (GH ltac:(nra)). nra. }
  split; [exact G1|]. split; [exact G2|]. split; [|split].
  - apply abs_form; [exact Hd| |exact HH|exact G3]. rewrite IK. pose proof (INR50 n Hs). pose proof uu300. pose proof uu_pos. lra.
  - intros EX. destruct (Req_dec (Hk t W) 0) as [|N]; [assumption|]. exfalso. pose proof (groups_half t k gs F) as GH. rewrite ES in GH. specialize (GH ltac:(nra)).
    pose proof (lo_pos delta K _ _ Hd (half_u _ _ Hn Hs GH) (proj1 G3)). lra.
  - intros EZ. apply (groups_zero l2 delta HL t k gs n F Hn LC (small50 _ Hs)). rewrite ES, EZ. ring.
Qed.
Print Assumptions C93_kth_order_f64.
Theorem C93_program_f64 : forall l2 delta sort content p k W, log2_accurate l2 delta -> 0 <= delta <= / 4 -> (forall t, is_suffix_array t (sort t)) ->
  let s := prefix_read content p in s <> [] -> bytes s -> ~ In 0%nat s -> (1 <= k)%nat -> contexts (s ++ [0%nat]) k W ->
  let n := length (s ++ [0%nat]) in (Z.of_nat n <= 2 ^ 50)%Z ->
  exists x, entropy_main_a (ieee l2) sort true content p k = Ok x /\ is_finite x = true /\ 0 <= B2R x /\
    Rabs (B2R x - Hk (s ++ [0%nat]) W) <= 2 * (delta + (INR n + 260) * roundoff) * Hk (s ++ [0%nat]) W + 6 * roundoff /\
    (B2R x = 0 <-> Hk (s ++ [0%nat]) W = 0).
Proof.
  intros l2 delta sort content p k W HL Hd HSo s Hne HB Hz Hk HW n Hs.
  unfold entropy_main_a. rewrite prefix_read_ok. cbn [bind]. fold s. destruct (Nat.eqb_spec k 0); [lia|]. now apply C93_kth_order_f64.
Qed.
Print Assumptions C93_program_f64.
Example C93_case : exists x, kth_order_entropy_a (ieee log2_nearest) naive_sort (ascii "aab" ++ [0%nat]) 1 = Ok x /\ Rabs (B2R x - 1 / 2) <= / 2 ^ 40.
Proof.
  pose proof uu_pos as U0. pose proof uu_small as U1.
  destruct (C93_kth_order_f64 log2_nearest roundoff naive_sort (ascii "aab") 1 [[97]; [98]]%nat log2_nearest_accurate) as (x & E & _ & _ & B & _).
  - rewrite roundoff_uu. lra.
  - exact naive_sort_ok.
  - discriminate.
  - repeat constructor; lia.
  - intros [H|[H|[H|[]]]]; discriminate.
  - lia.
  - exact aab_contexts.
  - vm_compute. discriminate.
  - exists x. split; [exact E|]. rewrite aab_entropy in B. eapply Rle_trans; [exact B|]. rewrite roundoff_uu. change (length (ascii "aab" ++ [0%nat])) with 4%nat.
    apply Rle_trans with (bpow radix2 13 * uu); [|right; change 40%nat with (Z.to_nat 40); unfold uu; rewrite <- bpow_plus; change (13 + -53)%Z with (- Z.of_nat 40)%Z; rewrite bpow_opp, bpow_nat; reflexivity].
    change (bpow radix2 13) with 8192. replace (INR 4) with 4 by (simpl; lra). lra.
Qed.

(** C94: the k-mer program, in every iteration order of its hash maps *)
Theorem C94_kmer_f64 : forall l2 delta it1 it2 s k W, log2_accurate l2 delta -> 0 <= delta <= / 4 ->
  (forall m, Permutation (it1 m) m) -> (forall m, Permutation (it2 m) m) ->
  bytes s -> ~ In 0%nat s -> (1 <= k <= 7)%nat -> contexts (s ++ [0%nat]) k W ->
  let n := length (s ++ [0%nat]) in (k <= n)%nat -> (Z.of_nat n <= 2 ^ 50)%Z ->
  exists x, entropy_via_kmer_counting_a (ieee l2) it1 it2 (s ++ [0%nat]) k = Ok (x, n) /\ is_finite x = true /\
    Rabs (B2R x - Hk (s ++ [0%nat]) W) <= 4 * (delta + (INR n + 3) * roundoff) * lg (INR n).
Proof.
  intros l2 delta it1 it2 s k W HL Hd P1 P2 HB Hz HkP HW n Hkn Hs. rewrite roundoff_uu. assert (Ln : n = (length s + 1)%nat) by (unfold n; rewrite app_length; reflexivity).
  destruct (kmer_float l2 delta HL ltac:(lra) it1 it2 s k W P1 P2 HB (zero_free s Hz) HkP ltac:(lia) HW ltac:(rewrite <- Ln; now apply small50) (length s + 4)%nat eq_refl) as (x & E & F & B).
  rewrite <- Ln in *. exists x. split; [exact E|]. split; [exact F|]. eapply Rle_trans; [exact B|].
  assert (Hn : (1 <= n)%nat) by lia. pose proof (lg_nonneg (INR n) (INR_ge1 n Hn)) as G. apply Rmult_le_compat_r; [exact G|].
  assert (IK : INR (length s + 4) = INR n + 3) by (rewrite Ln, !plus_INR; simpl; ring).
  pose proof (pow_lin delta (length s + 4) Hd) as PL. rewrite IK in PL. specialize (PL ltac:(pose proof (INR50 n Hs); pose proof uu300; pose proof uu_pos; lra)). lra.
Qed.
Print Assumptions C94_kmer_f64.
(** the two programs print nearly the same number *)
Theorem C94_programs_agree_f64 : forall l2 delta sort it1 it2 content p k, log2_accurate l2 delta -> 0 <= delta <= / 4 -> (forall t, is_suffix_array t (sort t)) ->
  (forall m, Permutation (it1 m) m) -> (forall m, Permutation (it2 m) m) ->
  let s := prefix_read content p in s <> [] -> bytes s -> ~ In 0%nat s -> (1 <= k <= 7)%nat ->
  let n := length (s ++ [0%nat]) in (k <= n)%nat -> (Z.of_nat n <= 2 ^ 50)%Z ->
  exists x y, entropy_main_a (ieee l2) sort true content p k = Ok x /\ entropy_kmer_main_a (ieee l2) it1 it2 true content p k = Ok (y, n) /\
    Rabs (B2R x - B2R y) <= 2 * (delta + (INR n + 260) * roundoff) * 8 + 6 * roundoff + 4 * (delta + (INR n + 3) * roundoff) * lg (INR n).
Proof.
  intros l2 delta sort it1 it2 content p k HL Hd HSo P1 P2 s Hne HB Hz Hk n Hkn Hs.
  destruct (contexts_ex (s ++ [0%nat]) k) as (W & HW).
  destruct (C93_program_f64 l2 delta sort content p k W HL Hd HSo Hne HB Hz ltac:(lia) HW Hs) as (x & EX & _ & _ & BX & _).
  destruct (C94_kmer_f64 l2 delta it1 it2 s k W HL Hd P1 P2 HB Hz Hk HW Hkn Hs) as (y & EY & _ & BY). fold s n in BX.
  exists x, y. split; [exact EX|]. split.
  - unfold entropy_kmer_main_a. destruct (Nat.ltb_spec 0 k); [|lia]. cbn [assert_ bind]. destruct (Nat.leb_spec k 7); [|lia]. cbn [assert_ bind].
    rewrite prefix_read_ok. cbn [bind]. fold s. exact EY.
  - assert (HH : 0 <= SpecEntropy.Hk (s ++ [0%nat]) W <= 8).
    { destruct (C72_entropy_bounds sort content p 0 k HSo HB Hne Hz ltac:(lia)) as (a & b & E0 & E1 & R1 & _).
      destruct (C56_program sort content p k W HSo HB) as (Q0 & Q1). fold s in Q1. rewrite (Q1 Hne Hz ltac:(lia) HW) in E1. apply ok_some_inj in E1. fold s in Q0. rewrite Q0 in E0. apply ok_some_inj in E0.
      pose proof (H0_bounds (s ++ [0%nat]) ltac:(apply Forall_app; split; [exact HB|constructor; [lia|constructor]]) (snoc_ne s)). rewrite E1. lra. }
    replace (B2R x - B2R y) with ((B2R x - SpecEntropy.Hk (s ++ [0%nat]) W) - (B2R y - SpecEntropy.Hk (s ++ [0%nat]) W)) by ring.
    unfold Rminus at 1. eapply Rle_trans; [apply Rabs_triang|]. rewrite Rabs_Ropp.
    assert (C0 : 0 <= 2 * (delta + (INR n + 260) * roundoff)). { pose proof (pos_INR n). pose proof uu_pos. rewrite roundoff_uu. nra. }
    apply Rplus_le_compat; [|exact BY]. eapply Rle_trans; [exact BX|]. apply Rplus_le_compat_r. apply Rmult_le_compat_l; [exact C0|apply HH].
Qed.
Print Assumptions C94_programs_agree_f64.
Example C94_case : exists x, entropy_via_kmer_counting_a (ieee log2_nearest) (@rev _) (fun m => m) (ascii "aab" ++ [0%nat]) 1 = Ok (x, 4%nat) /\ Rabs (B2R x - 1 / 2) <= / 2 ^ 40.
Proof.
  pose proof uu_pos as U0. pose proof uu_small as U1.
  destruct (C94_kmer_f64 log2_nearest roundoff (@rev _) (fun m => m) (ascii "aab") 1 [[97]; [98]]%nat log2_nearest_accurate) as (x & E & _ & B).
  - rewrite roundoff_uu. lra.
  - intros m. apply Permutation_sym, Permutation_rev.
  - intros m. apply Permutation_refl.
  - repeat constructor; lia.
  - intros [H|[H|[H|[]]]]; discriminate.
  - lia.
  - exact aab_contexts.
  - simpl. lia.
  - vm_compute. discriminate.
  - exists x. split; [exact E|]. rewrite aab_entropy in B. eapply Rle_trans; [exact B|]. rewrite roundoff_uu. change (length (ascii "aab" ++ [0%nat])) with 4%nat.
    apply Rle_trans with (bpow radix2 13 * uu); [|right; change 40%nat with (Z.to_nat 40); unfold uu; rewrite <- bpow_plus; change (13 + -53)%Z with (- Z.of_nat 40)%Z; rewrite bpow_opp, bpow_nat; reflexivity].
    change (bpow radix2 13) with 8192. replace (INR 4) with (2 ^ 2) by (simpl; lra). rewrite lg_pow2. simpl. lra.
Qed.

(** C95: whether the programs panic does not depend on the arithmetic *)
Definition outcome {X} (r : res X) : res unit := match r with Ok _ => Ok tt | Panic => Panic | OutOfFuel => OutOfFuel end.
Lemma rres_outcome {X Y} (P : X -> Y -> Prop) r r' : rres P r r' -> outcome r = outcome r'.
Proof. destruct r, r'; cbn [rres outcome]; easy. Qed.
Theorem C95_same_outcome : forall A sort it1 it2 is_file content p k,
  outcome (entropy_main_a A sort is_file content p k) = outcome (entropy_main sort is_file content p k) /\
  outcome (entropy_kmer_main_a A it1 it2 is_file content p k) = outcome (entropy_kmer_main it1 it2 is_file content p k).
Proof.
  intros A sort it1 it2 is_file content p k. rewrite <- main_reals, <- kmer_main_reals. split.
  - eapply rres_outcome. apply (main_param A reals (fun _ _ => True)); auto.
  - eapply rres_outcome. apply (kmer_main_param A reals (fun _ _ => True)); auto.
Qed.
Print Assumptions C95_same_outcome.
(** and over the reals they are the programs of C56, C57, C71, C72 *)
Theorem C95_reals : forall sort it1 it2 is_file content p k,
  entropy_main_a reals sort is_file content p k = entropy_main sort is_file content p k /\
  entropy_kmer_main_a reals it1 it2 is_file content p k = entropy_kmer_main it1 it2 is_file content p k.
Proof. intros. split; [apply main_reals|apply kmer_main_reals]. Qed.
Print Assumptions C95_reals.
(** the panics in f64: order 0 or above 7 for the k-mer program, a zero byte inside the text for entropy *)
Theorem C95_panics_f64 : forall l2 sort it1 it2 is_file content p k,
  (k = 0%nat \/ (7 < k)%nat -> entropy_kmer_main_a (ieee l2) it1 it2 is_file content p k = Panic) /\
  ((1 <= k)%nat -> In 0%nat (prefix_read content p) -> entropy_main_a (ieee l2) sort true content p k = Panic).
Proof.
  intros l2 sort it1 it2 is_file content p k. destruct (C95_same_outcome (ieee l2) sort it1 it2 is_file content p k) as (_ & O2). split.
  - intros H. rewrite (C57_kmer_program_orders it1 it2 is_file content p k H) in O2. destruct (entropy_kmer_main_a _ _ _ _ _ _ _); easy.
  - intros Hk HI. destruct (C95_same_outcome (ieee l2) sort it1 it2 true content p k) as (O1 & _). unfold entropy_main in O1. rewrite prefix_read_ok in O1. cbn [bind] in O1.
    destruct (Nat.eqb_spec k 0); [lia|]. rewrite C56_panics in O1; [destruct (entropy_main_a _ _ _ _ _ _); easy|]. right. right.
    rewrite app_length. cbn [length]. rewrite Nat.add_sub, firstn_app, firstn_all, Nat.sub_diag. cbn [firstn]. now rewrite app_nil_r.
Qed.
Print Assumptions C95_panics_f64.
Example C95_case : forall l2 sort, entropy_main_a (ieee l2) sort true [97;0;98]%nat 0 1 = Panic.
Proof. intros l2 sort. apply (proj2 (C95_panics_f64 l2 sort (fun m => m) (fun m => m) true [97;0;98]%nat 0%nat 1%nat)); [lia|]. simpl. auto. Qed.

(** the sign: the entropy program never prints a negative number nor "-0" (C92, C93) *)
Theorem C92_sign : forall l2 delta v, log2_accurate l2 delta -> 0 <= delta <= / 4 ->
  bytes v -> v <> [] -> (Z.of_nat (length v) <= 2 ^ 50)%Z ->
  exists x, zero_order_entropy_a (ieee l2) v = Ok x /\ is_finite x = true /\ Bsign x = false.
Proof.
  intros l2 delta v HL Hd HB Hne Hs. exists (zoe (ieee l2) v). rewrite zoe_ok by exact HB. split; [reflexivity|].
  split; [apply (zoe_fin l2 delta HL ltac:(lra) v HB Hne (small50 _ Hs))|apply (zoe_sign l2 delta HL ltac:(lra) v HB Hne (small50 _ Hs))].
Qed.
Print Assumptions C92_sign.
Theorem C93_sign : forall l2 delta sort content p k, log2_accurate l2 delta -> 0 <= delta <= / 4 -> (forall t, is_suffix_array t (sort t)) ->
  let s := prefix_read content p in bytes s -> (k = 0%nat \/ s <> [] /\ ~ In 0%nat s) -> (Z.of_nat (length s) < 2 ^ 50)%Z ->
  exists x, entropy_main_a (ieee l2) sort true content p k = Ok x /\ is_finite x = true /\ Bsign x = false.
Proof.
  intros l2 delta sort content p k HL Hd HSo s HB HC Hs. unfold entropy_main_a. rewrite prefix_read_ok. cbn [bind]. fold s.
  assert (Lt : (Z.of_nat (length (s ++ [0%nat])) <= 2 ^ 50)%Z) by (rewrite app_length; cbn [length]; lia).
  destruct (Nat.eqb_spec k 0) as [E|Hk].
  - apply (C92_sign l2 delta); auto; [|apply snoc_ne]. apply Forall_app. split; [exact HB|]. constructor; [lia|constructor].
  - destruct HC as [HC|(Hne & Hz)]; [easy|]. set (t := s ++ [0%nat]) in *.
    assert (Hs0 : (0 < length s)%nat) by (destruct s; [easy|simpl; lia]).
    destruct (kth_a_ok (ieee l2) s k (sort t) (zero_free s Hz) HB ltac:(lia) (HSo t) sort eq_refl Hs0) as (gs & E & F & S1 & LC). fold t in E, F, S1, LC.
    assert (Hn : (1 <= length t)%nat) by (unfold t; rewrite app_length; simpl; lia).
    eexists. split; [exact E|]. split.
    + assert (EK : exists K, (260 + length t <= K)%nat) by (eexists; apply le_n). destruct EK as (K & HK).
      apply (groups_appr l2 delta HL ltac:(lra) t k gs (length t) K F Hn LC (small50 _ Lt) HK).
    + apply (groups_sign l2 delta HL ltac:(lra) t k gs (length t) F Hn LC (small50 _ Lt)).
Qed.
Print Assumptions C93_sign.
Example C93_sign_case : exists x, entropy_main_a (ieee log2_nearest) naive_sort true (ascii "aab") 0 1 = Ok x /\ is_finite x = true /\ Bsign x = false.
Proof.
  pose proof uu_pos as U0. pose proof uu_small as U1.
  apply (C93_sign log2_nearest roundoff); [exact log2_nearest_accurate|rewrite roundoff_uu; lra|exact naive_sort_ok| | |].
  - repeat constructor; lia.
  - right. split; [discriminate|]. intros [H|[H|[H|[]]]]; discriminate.
  - vm_compute. reflexivity.
Qed.
