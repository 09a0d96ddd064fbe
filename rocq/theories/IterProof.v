(** IterProof.v : BinaryStringGenerator, ConjugateIterator, RandomStringGenerator, bit_size. *)
From Verif Require Import Base SpecStr ModelCore.
From Coq Require Import NArith.

Lemma for_push {I A} (l : list I) (f : I -> A) (body : I -> list A -> res (list A)) (acc : list A) :
  (forall i r, In i l -> body i r = Ok (r ++ [f i])) -> for_in l body acc = Ok (acc ++ map f l).
Proof.
  revert acc. induction l as [|i l IH]; intros acc H; simpl; [now rewrite app_nil_r|].
  rewrite H by now left. cbn [bind]. rewrite IH by (intros; apply H; now right). now rewrite <- app_assoc.
Qed.

(** ** ConjugateIterator *)
Lemma map_nth_seq (t : str) a k : a + k <= length t ->
  map (fun i => nth i t 0) (seq a k) = firstn k (skipn a t).
Proof.
  intros H. apply (nth_ext_len _ _ 0).
  - rewrite map_length, seq_length, firstn_length, skipn_length. lia.
  - intros i Hi. rewrite map_length, seq_length in Hi.
    rewrite (nth_map _ _ i 0) by (rewrite seq_length; lia). rewrite seq_nth by lia.
    rewrite nth_firstn, nth_skipn by lia. reflexivity.
Qed.

Lemma cit_next_ok t p : p < length t -> cit_next (CIT t p) = Ok (Some (rot p t), CIT t (p + 1)).
Proof.
  intros Hp. unfold cit_next. cbn [cit_text cit_pos].
  destruct (Nat.eqb_spec p (length t)); [lia|].
  rewrite (@for_push _ _ _ (fun i => nth i t 0)).
  2:{ intros i r Hi. apply in_seq in Hi. rewrite (get_ok _ _ 0) by lia. reflexivity. }
  cbn [bind].
  rewrite (@for_push _ _ _ (fun i => nth i t 0)).
  2:{ intros i r Hi. apply in_seq in Hi. rewrite (get_ok _ _ 0) by lia. reflexivity. }
  cbn [bind]. unfold range. rewrite !map_nth_seq by lia. simpl app.
  rewrite firstn_all2 by (rewrite skipn_length; lia).
  rewrite Nat.sub_0_r. reflexivity.
Qed.
Lemma cit_next_end t : cit_next (CIT t (length t)) = Ok (None, CIT t (length t)).
Proof. unfold cit_next. cbn [cit_text cit_pos]. now rewrite Nat.eqb_refl. Qed.

(** generic: an iterator that walks through a finite list of states *)
Lemma calls_end {G A} (next : G -> res (option A * G)) g k : next g = Ok (None, g) ->
  calls next k g = Ok (repeat None k).
Proof.
  intros H. induction k as [|k IH]; simpl; auto. rewrite H. cbn [bind]. rewrite IH. reflexivity.
Qed.
Lemma calls_list {G A} (next : G -> res (option A * G)) (st : nat -> G) (out : nat -> A) n k :
  (forall i, i < n -> next (st i) = Ok (Some (out i), st (S i))) ->
  next (st n) = Ok (None, st n) ->
  forall i, i <= n -> calls next k (st i) = Ok (yields (map out (seq i (n - i))) k).
Proof.
  intros H1 H2. induction k as [|k IH]; intros i Hi.
  - unfold yields. reflexivity.
  - destruct (Nat.eq_dec i n) as [->|Ne].
    + rewrite Nat.sub_diag. rewrite (calls_end next) by exact H2. reflexivity.
    + cbn [calls]. rewrite H1 by lia. cbn [bind]. rewrite IH by lia. cbn [bind].
      replace (n - i) with (S (n - S i)) by lia. simpl seq. simpl map. reflexivity.
Qed.

Lemma cit_yields t k : calls cit_next k (cit_new t) =
  Ok (yields (map (fun i => rot i t) (seq 0 (length t))) k).
Proof.
  unfold cit_new. pose proof (calls_list cit_next (CIT t) (fun i => rot i t) (length t) k) as H.
  rewrite (H) with (i := 0); [now rewrite Nat.sub_0_r| |apply cit_next_end|lia].
  intros i Hi. rewrite cit_next_ok by auto. now rewrite Nat.add_1_r.
Qed.

(** ** BinaryStringGenerator *)
Definition lsb_string (len : nat) (r : N) : str :=
  map (fun i => if N.testbit r (N.of_nat i) then 49 else 48) (seq 0 len).

Lemma land_shiftl1 r i : (N.land r (N.shiftl 1 i) =? 0)%N = negb (N.testbit r i).
Proof.
  rewrite N.shiftl_1_l. destruct (N.testbit r i) eqn:E; simpl.
  - apply N.eqb_neq. intros H. apply (f_equal (fun x => N.testbit x i)) in H.
    rewrite N.land_spec, E, N.bits_0, N.pow2_bits_true in H. discriminate.
  - apply N.eqb_eq. apply N.bits_inj. intros j. rewrite N.land_spec, N.bits_0.
    destruct (N.eq_dec j i) as [->|Ne]; [now rewrite E|].
    rewrite N.pow2_bits_false by auto. apply andb_false_r.
Qed.

Lemma bsg_next_ok len r : len <= 64 -> (r < 18446744073709551615)%N ->
  bsg_next (BSG len r) = Ok (Some (lsb_string len r), BSG len (r + 1)%N).
Proof.
  intros Hl Hr. unfold bsg_next. cbn [bsg_length bsg_rank].
  destruct (N.eqb_spec r 18446744073709551615); [lia|].
  rewrite (@for_push _ _ _ (fun i => if N.testbit r (N.of_nat i) then 49 else 48)).
  2:{ intros i x Hi. apply in_seq in Hi. destruct (Nat.leb_spec 64 i); [lia|].
      rewrite land_shiftl1. now destruct (N.testbit r (N.of_nat i)). }
  cbn [bind]. unfold range. rewrite Nat.sub_0_r. reflexivity.
Qed.

Lemma bsg_calls len k : len <= 64 -> (N.of_nat k <= 18446744073709551615)%N ->
  calls bsg_next k (bsg_new len) = Ok (map (fun r => Some (lsb_string len (N.of_nat r))) (seq 0 k)).
Proof.
  intros Hl. unfold bsg_new.
  assert (G : forall k r, (N.of_nat (r + k) <= 18446744073709551615)%N ->
    calls bsg_next k (BSG len (N.of_nat r)) = Ok (map (fun r => Some (lsb_string len (N.of_nat r))) (seq r k))).
  { clear k. induction k as [|k IH]; intros r Hr; [reflexivity|]. cbn [calls].
    rewrite bsg_next_ok by lia. cbn [bind]. replace (N.of_nat r + 1)%N with (N.of_nat (S r)) by lia.
    rewrite IH by (replace (S r + k) with (r + S k) by lia; auto). reflexivity. }
  intros Hk. apply (G k 0). exact Hk.
Qed.

Lemma bsg_end len : bsg_next (BSG len 18446744073709551615) = Ok (None, BSG len 18446744073709551615).
Proof. reflexivity. Qed.

Lemma bsg_panic len : 64 < len -> bsg_next (bsg_new len) = Panic.
Proof.
  intros H. unfold bsg_next, bsg_new. cbn [bsg_length bsg_rank].
  destruct (N.eqb_spec 0 18446744073709551615); [lia|].
  replace (range 0 len) with (seq 0 64 ++ 64 :: seq 65 (len - 65)).
  2:{ unfold range. rewrite Nat.sub_0_r. replace len with (64 + (1 + (len - 65))) at 2 by lia.
      rewrite seq_app. reflexivity. }
  rewrite for_in_app.
  rewrite (@for_push _ _ _ (fun i => if N.testbit 0 (N.of_nat i) then 49 else 48)).
  - reflexivity.
  - intros i x Hi. apply in_seq in Hi. destruct (Nat.leb_spec 64 i); [lia|].
    rewrite land_shiftl1. now destruct (N.testbit 0 (N.of_nat i)).
Qed.

(** the value of a binary string read least significant bit first *)
Fixpoint lsb_value (w : str) : N :=
  match w with [] => 0 | c :: w' => ((if Nat.eqb c 49 then 1 else 0) + 2 * lsb_value w')%N end.
Lemma lsb_value_bound w : (lsb_value w < 2 ^ N.of_nat (length w))%N.
Proof.
  induction w as [|c w IH]; cbn [length lsb_value]; [reflexivity|].
  rewrite Nat2N.inj_succ, N.pow_succ_r'. destruct (Nat.eqb c 49); lia.
Qed.
Lemma lsb_string_S len r : lsb_string (S len) r = (if N.testbit r 0 then 49 else 48) :: lsb_string len (N.div2 r).
Proof.
  unfold lsb_string. simpl seq. cbn [map]. f_equal. rewrite <- seq_shift, map_map. apply map_ext.
  intros i. rewrite N.div2_spec, N.shiftr_spec'. now rewrite Nat2N.inj_succ, N.add_1_r.
Qed.
Lemma lsb_value_string len r : (r < 2 ^ N.of_nat len)%N -> lsb_value (lsb_string len r) = r.
Proof.
  revert r. induction len as [|len IH]; intros r Hr; [simpl in *; lia|].
  rewrite lsb_string_S. cbn [lsb_value]. rewrite Nat2N.inj_succ, N.pow_succ_r' in Hr.
  pose proof (N.div2_odd r) as E. rewrite IH by lia. rewrite N.bit0_odd.
  destruct (N.odd r).
  - change (N.b2n true) with 1%N in E. change (49 =? 49) with true. cbv iota. lia.
  - change (N.b2n false) with 0%N in E. change (48 =? 49) with false. cbv iota. lia.
Qed.
Lemma lsb_string_value w : (forall c, In c w -> c = 48 \/ c = 49) -> lsb_string (length w) (lsb_value w) = w.
Proof.
  induction w as [|c w IH]; intros H; [reflexivity|].
  simpl length. rewrite lsb_string_S. cbn [lsb_value].
  assert (E : N.div2 ((if Nat.eqb c 49 then 1 else 0) + 2 * lsb_value w) = lsb_value w).
  { rewrite N.div2_div. symmetry. destruct (c =? 49); [apply (N.div_unique _ 2 _ 1)|apply (N.div_unique _ 2 _ 0)]; lia. }
  rewrite E, IH by (intros; apply H; now right). f_equal. rewrite N.bit0_odd, N.odd_add, N.odd_mul.
  destruct (H c (or_introl eq_refl)) as [-> | ->]; reflexivity.
Qed.

Lemma lsb_string_length len r : length (lsb_string len r) = len.
Proof. unfold lsb_string. now rewrite map_length, seq_length. Qed.
Lemma lsb_string_letters len r c : In c (lsb_string len r) -> c = 48 \/ c = 49.
Proof. unfold lsb_string. rewrite in_map_iff. intros (i & <- & _). destruct (N.testbit _ _); auto. Qed.

Lemma of_nat_pow2 n : N.of_nat (2 ^ n) = (2 ^ N.of_nat n)%N.
Proof.
  induction n as [|n IH]; [reflexivity|]. rewrite Nat2N.inj_succ, N.pow_succ_r', <- IH.
  rewrite Nat.pow_succ_r'. lia.
Qed.

Lemma bsg_all len w : length w = len -> (forall c, In c w -> c = 48 \/ c = 49) ->
  exists r, r < 2 ^ len /\ lsb_string len (N.of_nat r) = w /\
    forall r', r' < 2 ^ len -> lsb_string len (N.of_nat r') = w -> r' = r.
Proof.
  intros Hl Hc. exists (N.to_nat (lsb_value w)). pose proof (lsb_value_bound w) as B. rewrite Hl in B.
  split; [|split].
  - rewrite <- of_nat_pow2 in B. lia.
  - rewrite N2Nat.id, <- Hl. now apply lsb_string_value.
  - intros r' Hr' E. rewrite <- E, lsb_value_string by (rewrite <- of_nat_pow2; lia). lia.
Qed.
Lemma lsb_string_periodic len r : lsb_string len (r + 2 ^ N.of_nat len) = lsb_string len r.
Proof.
  unfold lsb_string. apply map_ext_in. intros i Hi. apply in_seq in Hi.
  assert (E : N.testbit (r + 2 ^ N.of_nat len) (N.of_nat i) = N.testbit r (N.of_nat i)); [|now rewrite E].
  rewrite <- (N.mod_pow2_bits_low (r + 2 ^ N.of_nat len) (N.of_nat len)) by lia.
  rewrite <- (N.mod_pow2_bits_low r (N.of_nat len)) by lia.
  f_equal. rewrite <- (N.mul_1_l (2 ^ N.of_nat len)) at 1. apply N.mod_add. apply N.pow_nonzero. lia.
Qed.

(** ** bit_size *)
Lemma bit_size_eq i : (i < 2 ^ 64)%N -> bit_size i = N.size i.
Proof.
  intros H. unfold bit_size, leading_zeros64.
  assert (N.size i <= 64)%N; [|lia].
  destruct (N.eq_dec i 0) as [->|Ne]; [simpl; lia|]. rewrite N.size_log2 by auto.
  apply N.le_succ_l. apply N.log2_lt_pow2; lia.
Qed.
Lemma bit_size_ok i : (i < 2 ^ 64)%N -> (i < 2 ^ bit_size i)%N /\ (forall b, (i < 2 ^ b)%N -> (bit_size i <= b)%N).
Proof.
  intros H. rewrite bit_size_eq by auto. split; [apply N.size_gt|]. intros b Hb.
  destruct (N.eq_dec i 0) as [->|Ne]; [simpl; lia|]. rewrite N.size_log2 by auto.
  apply N.le_succ_l. apply N.log2_lt_pow2; lia.
Qed.

(** ** RandomStringGenerator *)
Definition rsg_string (l r : N) : str :=
  map (fun i => N.to_nat (((r / 2 ^ (l * N.of_nat i)) mod 2 ^ l + 1) mod 256))
      (seq 1 (N.to_nat (N.size r / l) - 1)) ++ [0].

Lemma N_shiftr_mask r sh l : (1 <= l <= 64)%N ->
  N.land (N.shiftr r sh) (N.shiftr 18446744073709551615 (64 - l)) = ((r / 2 ^ sh) mod 2 ^ l)%N.
Proof.
  intros Hl. rewrite N.shiftr_div_pow2.
  replace (N.shiftr 18446744073709551615 (64 - l)) with (N.ones l).
  - apply N.land_ones.
  - apply N.bits_inj. intros i. rewrite N.shiftr_spec'.
    change 18446744073709551615%N with (N.ones 64).
    destruct (N.lt_ge_cases i l).
    + rewrite !N.ones_spec_low; auto; lia.
    + rewrite !N.ones_spec_high; auto; lia.
Qed.

Lemma rsg_next_some s e l : (1 <= l <= 64)%N -> (s * 2 < e)%N -> (e < 2 ^ 64)%N ->
  rsg_next (RSG s e l) = Ok (Some (rsg_string l (s + 1)), RSG (s + 1) e l).
Proof.
  intros Hl Hs He. change (2 ^ 64)%N with 18446744073709551616%N in He.
  assert (Hsz : (N.size (s + 1) <= 64)%N).
  { rewrite N.size_log2 by lia. apply N.le_succ_l. apply N.log2_lt_pow2; [lia|].
    change (2 ^ 64)%N with 18446744073709551616%N. lia. }
  unfold rsg_next. cbn [rsg_start rsg_end rsg_log].
  destruct (N.leb_spec 18446744073709551616 (s * 2)); [lia|].
  destruct (N.leb_spec e (s * 2)); [lia|].
  destruct (N.leb_spec e s); [lia|].
  destruct (N.ltb_spec 64 l); [lia|].
  destruct (N.eqb_spec l 0); [lia|].
  rewrite bit_size_eq by (change (2 ^ 64)%N with 18446744073709551616%N; lia).
  assert (Hm : (2 ^ l <= 18446744073709551616)%N).
  { change 18446744073709551616%N with (2 ^ 64)%N. apply N.pow_le_mono_r; lia. }
  rewrite (@for_push _ _ _ (fun i => N.to_nat ((((s + 1) / 2 ^ (l * N.of_nat i)) mod 2 ^ l + 1) mod 256))).
  2:{ intros i x Hi. apply in_seq in Hi.
      assert (Hi2 : (N.of_nat i < N.size (s + 1) / l)%N) by lia.
      assert (Hli : (l * N.of_nat i < 64)%N).
      { assert (l * (N.size (s + 1) / l) <= N.size (s + 1))%N by (apply N.mul_div_le; lia). nia. }
      destruct (N.leb_spec 256 (l * N.of_nat i)); [lia|].
      destruct (N.leb_spec 64 (l * N.of_nat i)); [lia|].
      rewrite N_shiftr_mask by lia.
      destruct (N.leb_spec 18446744073709551616 (((s + 1) / 2 ^ (l * N.of_nat i)) mod 2 ^ l + 1)); [exfalso|reflexivity].
      assert (((s + 1) / 2 ^ (l * N.of_nat i)) mod 2 ^ l <= (s + 1) / 2 ^ (l * N.of_nat i))%N by (apply N.mod_le, N.pow_nonzero; lia).
      assert ((s + 1) / 2 ^ (l * N.of_nat i) <= s + 1)%N.
      { apply N.div_le_upper_bound; [apply N.pow_nonzero; lia|].
        assert (2 ^ (l * N.of_nat i) <> 0)%N by (apply N.pow_nonzero; lia). nia. }
      lia. }
  cbn [bind]. reflexivity.
Qed.
Lemma rsg_next_none s e l : (e <= s * 2)%N -> (s * 2 < 2 ^ 64)%N -> rsg_next (RSG s e l) = Ok (None, RSG s e l).
Proof.
  intros H1 H2. change (2 ^ 64)%N with 18446744073709551616%N in H2. unfold rsg_next. cbn [rsg_start rsg_end rsg_log].
  destruct (N.leb_spec 18446744073709551616 (s * 2)); [lia|].
  destruct (N.leb_spec e (s * 2)); [auto|lia].
Qed.

Lemma rsg_yields e l k : (1 <= l <= 64)%N -> (e < 2 ^ 64 - 1)%N ->
  calls rsg_next k (RSG 0 e l) =
    Ok (yields (map (fun r => rsg_string l (N.of_nat r)) (seq 1 (N.to_nat ((e + 1) / 2)))) k).
Proof.
  intros Hl He. change (2 ^ 64 - 1)%N with 18446744073709551615%N in He.
  set (n := N.to_nat ((e + 1) / 2)).
  assert (Hn : (e <= N.of_nat n * 2 <= e + 1)%N).
  { unfold n. clear n. rewrite N2Nat.id. pose proof (N.div_mod (e + 1) 2 ltac:(lia)) as E1.
    pose proof (N.mod_upper_bound (e + 1) 2 ltac:(lia)) as E2. clear - E1 E2.
    generalize dependent ((e + 1) mod 2)%N. generalize dependent ((e + 1) / 2)%N. intros; lia. }
  pose proof (calls_list rsg_next (fun i => RSG (N.of_nat i) e l) (fun i => rsg_string l (N.of_nat (S i))) n k) as H.
  cbv beta in H. change (RSG 0 e l) with (RSG (N.of_nat 0) e l). rewrite H with (i := 0).
  - rewrite Nat.sub_0_r. rewrite <- (seq_shift n 0), map_map. reflexivity.
  - intros i Hi. rewrite rsg_next_some by lia.
    replace (N.of_nat i + 1)%N with (N.of_nat (S i)) by lia. reflexivity.
  - apply rsg_next_none; [lia|]. change (2 ^ 64)%N with 18446744073709551616%N. lia.
  - lia.
Qed.

Lemma rsg_string_letters l r : (1 <= l <= 7)%N -> exists w, rsg_string l r = w ++ [0] /\
  forall c, In c w -> 1 <= c <= 2 ^ N.to_nat l.
Proof.
  intros Hl. eexists. split; [reflexivity|]. intros c Hc. apply in_map_iff in Hc. destruct Hc as (i & <- & _).
  set (x := ((r / 2 ^ (l * N.of_nat i)) mod 2 ^ l)%N).
  assert (Hx : (x < 2 ^ l)%N) by (apply N.mod_upper_bound, N.pow_nonzero; lia).
  assert (H7 : (2 ^ l <= 2 ^ 7)%N) by (apply N.pow_le_mono_r; lia). change (2 ^ 7)%N with 128%N in H7.
  rewrite N.mod_small by lia.
  assert (Ep : 2 ^ N.to_nat l = N.to_nat (2 ^ l)).
  { rewrite <- (N2Nat.id l) at 2. rewrite <- of_nat_pow2. now rewrite Nat2N.id. }
  rewrite Ep. lia.
Qed.
Lemma rsg_max_panics l : rsg_next (RSG (2 ^ 63) (2 ^ 64 - 1) l) = Panic.
Proof. reflexivity. Qed.
