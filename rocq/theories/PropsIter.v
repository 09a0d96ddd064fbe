(** PropsIter.v : property theorems C21-C25 (iterators, number_of_runs, bit_size). *)
From Verif Require Import Base SpecStr ModelCore ModelIo SpecIo RunFacts IterProof.
From Coq Require Import NArith.

(** C21. Specification: the binary string of length len whose letter i is '1' iff bit i of r is set
    (so the FIRST letter is the least significant bit). *)
Definition binary_lsb (len : nat) (r : N) (w : str) : Prop :=
  length w = len /\ forall i, i < len -> nth i w 0 = if N.testbit r (N.of_nat i) then 49 else 48.

(** For len <= 64 and up to 2^64-1 calls, call number r returns exactly that string. *)
Theorem C21_binary_generator : forall len k, len <= 64 -> (N.of_nat k <= 2^64 - 1)%N ->
  exists L, calls bsg_next k (bsg_new len) = Ok (map Some L) /\ length L = k /\
    forall r, r < k -> binary_lsb len (N.of_nat r) (nth r L []).
Proof.
  intros len k Hl Hk. exists (map (fun r => lsb_string len (N.of_nat r)) (seq 0 k)).
  rewrite bsg_calls by (auto; exact Hk). split; [now rewrite map_map|].
  split; [now rewrite map_length, seq_length|].
  intros r Hr. rewrite (nth_map _ _ r 0) by (rewrite seq_length; lia). rewrite nth_seq0 by lia.
  split; [apply lsb_string_length|]. intros i Hi. unfold lsb_string.
  rewrite (nth_map _ _ i 0) by (rewrite seq_length; lia). now rewrite nth_seq0 by lia.
Qed.
Print Assumptions C21_binary_generator.
(** The first 2^len calls return every binary string of length len exactly once (len <= 63). *)
Theorem C21_each_string_once : forall len, len <= 63 ->
  exists L, calls bsg_next (2 ^ len) (bsg_new len) = Ok (map Some L) /\ NoDup L /\
    forall w, In w L <-> length w = len /\ forall c, In c w -> c = 48 \/ c = 49.
Proof.
  intros len Hl. exists (map (fun r => lsb_string len (N.of_nat r)) (seq 0 (2 ^ len))).
  rewrite bsg_calls; [|lia|].
  2:{ rewrite of_nat_pow2. assert (2 ^ N.of_nat len <= 2 ^ 63)%N by (apply N.pow_le_mono_r; lia).
      change (2 ^ 63)%N with 9223372036854775808%N in H. lia. }
  split; [now rewrite map_map|]. split.
  - apply (NoDup_nth _ []). rewrite map_length, seq_length. intros i j Hi Hj E.
    rewrite !(nth_map _ _ _ 0) in E by (rewrite seq_length; lia). rewrite !nth_seq0 in E by lia.
    destruct (bsg_all len (lsb_string len (N.of_nat i))) as (r & _ & _ & HU).
    + apply lsb_string_length.
    + intros c. apply lsb_string_letters.
    + transitivity r; [auto|symmetry; auto].
  - intros w. rewrite in_map_iff. split.
    + intros (r & <- & _). split; [apply lsb_string_length|]. intros c. apply lsb_string_letters.
    + intros [H1 H2]. destruct (bsg_all len w H1 H2) as (r & Hr & E & _). exists r. split; auto.
      apply in_seq. lia.
Qed.
Print Assumptions C21_each_string_once.
(** ... but it then starts over instead of stopping: call number r + 2^len repeats call number r. *)
Theorem C21_does_not_stop : forall len r, len <= 63 -> (N.of_nat (r + 2 ^ len) < 2^64 - 1)%N ->
  exists w L, calls bsg_next (r + 2 ^ len + 1) (bsg_new len) = Ok (L ++ [Some w]) /\
              nth r L None = Some w.
Proof.
  intros len r Hl Hr. change (2 ^ 64 - 1)%N with 18446744073709551615%N in Hr.
  exists (lsb_string len (N.of_nat (r + 2 ^ len))).
  exists (map (fun r => Some (lsb_string len (N.of_nat r))) (seq 0 (r + 2 ^ len))).
  rewrite bsg_calls by lia. rewrite seq_app, map_app. split; [reflexivity|].
  rewrite (nth_map _ _ r 0) by (rewrite seq_length; pose proof (Nat.pow_nonzero 2 len ltac:(lia)); lia).
  rewrite nth_seq0 by (pose proof (Nat.pow_nonzero 2 len ltac:(lia)); lia).
  rewrite Nat2N.inj_add, of_nat_pow2. now rewrite lsb_string_periodic.
Qed.
Print Assumptions C21_does_not_stop.
(** None is returned only at rank 2^64-1; lengths above 64 panic. *)
Theorem C21_stops_at_max_rank : forall len r, (r < 2^64)%N -> len <= 64 ->
  (bsg_next (BSG len r) = Ok (None, BSG len r) <-> (r = 2^64 - 1)%N).
Proof.
  intros len r Hr Hl. change (2 ^ 64 - 1)%N with 18446744073709551615%N. change (2 ^ 64)%N with 18446744073709551616%N in Hr.
  split.
  - intros H. destruct (N.eq_dec r 18446744073709551615) as [|Ne]; auto.
    rewrite bsg_next_ok in H by lia. discriminate.
  - intros ->. apply bsg_end.
Qed.
Print Assumptions C21_stops_at_max_rank.
Theorem C21_long_panics : forall len, 64 < len -> bsg_next (bsg_new len) = Panic.
Proof. exact bsg_panic. Qed.
Print Assumptions C21_long_panics.
(** the documented claim "in lexicographic order" is refuted *)
Theorem C21_lexicographic_order_refuted :
  ~ (forall len k L, calls bsg_next k (bsg_new len) = Ok (map Some L) -> StronglySorted lex_lt L).
Proof.
  intros H. specialize (H 2 3 [[48;48];[49;48];[48;49]] eq_refl).
  inversion H as [|? ? H1 _]; subst. inversion H1 as [|? ? _ H2]; subst. inversion H2 as [|? ? H3 _]; subst.
  inversion H3; subst; lia.
Qed.
Print Assumptions C21_lexicographic_order_refuted.
Example C21_case : calls bsg_next 5 (bsg_new 2) =
  Ok [Some [48;48]; Some [49;48]; Some [48;49]; Some [49;49]; Some [48;48]].
Proof. reflexivity. Qed.

(** C22 *)
Theorem C22_conjugate_iterator : forall (t : str) k,
  calls cit_next k (cit_new t) = Ok (yields (map (fun i => rot i t) (seq 0 (length t))) k).
Proof. exact cit_yields. Qed.
Print Assumptions C22_conjugate_iterator.
Example C22_case : calls cit_next 5 (cit_new [1;2;3]) =
  Ok [Some [1;2;3]; Some [2;3;1]; Some [3;1;2]; None; None].
Proof. reflexivity. Qed.

(** C23: for every reader; [rs] are the maximal runs of the bytes delivered before the first
    end-of-file or error (they exist and are unique, second theorem). *)
Theorem C23_number_of_runs : forall rd bs rs fuel,
  delivers rd bs -> is_runs bs rs -> length bs < fuel ->
  number_of_runs fuel rd = Ok (length rs).
Proof.
  intros rd bs rs fuel HD HR HF. rewrite (number_of_runs_ok rd bs) by auto.
  now rewrite (is_runs_unique bs rs (runs bs) HR (runs_ok bs)).
Qed.
Print Assumptions C23_number_of_runs.
Theorem C23_runs_exist_unique : forall bs, exists rs, is_runs bs rs /\ forall rs', is_runs bs rs' -> rs' = rs.
Proof. intros bs. exists (runs bs). split; [apply runs_ok|]. intros rs' H. exact (is_runs_unique _ _ _ H (runs_ok bs)). Qed.
Print Assumptions C23_runs_exist_unique.
Example C23_case : delivers (reader_of [5;5;7;5]) [5;5;7;5] /\ is_runs [5;5;7;5] [(5,2);(7,1);(5,1)] /\
  number_of_runs 9 (reader_of [5;5;7;5]) = Ok 3.
Proof.
  split; [apply reader_of_delivers|]. split; [|reflexivity]. exact (runs_ok [5;5;7;5]).
Qed.

(** C24: the string produced from counter value r: its letters are the base-2^l digits 1,2,..
    (digit 0 is dropped) of r plus one, followed by the byte 0. *)
Theorem C24_random_string_generator : forall e l k, (1 <= l <= 7)%N -> (e < 2^64 - 1)%N ->
  exists L, calls rsg_next k (RSG 0 e l) = Ok (yields L k) /\
    length L = N.to_nat ((e + 1) / 2) /\
    (forall w, In w L -> exists u, w = u ++ [0] /\ forall c, In c u -> 1 <= c <= 2 ^ N.to_nat l) /\
    (forall j, j < length L -> nth j L [] =
       map (fun i => N.to_nat (((N.of_nat (S j) / 2 ^ (l * N.of_nat i)) mod 2 ^ l + 1) mod 256))
           (seq 1 (N.to_nat (N.size (N.of_nat (S j)) / l) - 1)) ++ [0]).
Proof.
  intros e l k Hl He. eexists. split; [apply rsg_yields; auto; lia|].
  split; [now rewrite map_length, seq_length|]. split.
  - intros w Hw. apply in_map_iff in Hw. destruct Hw as (r & <- & _). now apply rsg_string_letters.
  - intros j Hj. rewrite map_length, seq_length in Hj.
    rewrite (nth_map _ _ j 0) by (now rewrite seq_length). rewrite seq_nth by auto. reflexivity.
Qed.
Print Assumptions C24_random_string_generator.
(** with e = usize::MAX the generator panics on overflow instead of returning None *)
Theorem C24_max_range_panics : forall l, rsg_next (RSG (2 ^ 63) (2 ^ 64 - 1) l) = Panic.
Proof. exact rsg_max_panics. Qed.
Print Assumptions C24_max_range_panics.
(** with 8-bit letters a letter can be the byte 0, so the 0 sentinel is not unique *)
Theorem C24_eight_bits_refuted : exists e u v, calls rsg_next 1 (RSG (e - 1) (2 * e) 8) =
  Ok [Some (u ++ 0 :: v)] /\ v <> [].
Proof. exists 65281%N, [], [0]. split; [reflexivity|discriminate]. Qed.
Print Assumptions C24_eight_bits_refuted.
Example C24_case : calls rsg_next 5 (RSG 0 7 1) =
  Ok [Some [0]; Some [2;0]; Some [2;0]; Some [1;2;0]; None].
Proof. reflexivity. Qed.

(** C25 *)
Theorem C25_bit_size : forall i, (i < 2 ^ 64)%N ->
  (i < 2 ^ bit_size i)%N /\ forall b, (i < 2 ^ b)%N -> (bit_size i <= b)%N.
Proof. exact bit_size_ok. Qed.
Print Assumptions C25_bit_size.
Example C25_case : bit_size 0 = 0%N /\ bit_size 255 = 8%N /\ bit_size 256 = 9%N /\ bit_size (2^63) = 64%N.
Proof. repeat split; reflexivity. Qed.
