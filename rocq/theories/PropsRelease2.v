(** PropsRelease2.v : property theorems C103 (the string generators and lyndonwords in a release build). *)
From Verif Require Import Base SpecStr SpecMain SpecIo LexFacts ModelCore ModelIo ModelTools ModelWord ModelMain ModelRelease2
  DuvalProof LwgProof IterProof MainProof MainProof2 ReleaseProof3.
From Coq Require Import NArith.

(** C103: as long as the checked build does not panic, the release build yields the same *)
Theorem C103_agrees :
  (forall len k L, calls bsg_next k (bsg_new len) = Ok L -> calls bsg_next_release k (bsg_new len) = Ok L) /\
  (forall n s k L, calls lwg_next k (lwg_new n s) = Ok L -> calls lwg_next_release k (lwg_new n s) = Ok L) /\
  (forall a e l k L, (a < 2 ^ 64)%N -> (e < 2 ^ 64)%N ->
     calls rsg_next k (RSG a e l) = Ok L -> calls rsg_next_release k (RSG a e l) = Ok L) /\
  (forall n s fuel out, 1 <= n -> 1 <= s <= 256 -> lyndonwords_main fuel n s = Ok out -> lyndonwords_main_release fuel n s = Ok out).
Proof.
  split; [|split; [|split]].
  - intros len k L. apply (calls_refines (fun _ => True)); [|exact I]. intros g o g' _ E. split; [now apply bsg_agrees|exact I].
  - intros n s k L. apply (calls_refines (fun _ => True)); [|exact I]. intros g o g' _ E. split; [now apply lwg_agrees|exact I].
  - intros a e l k L Ha He. apply (calls_refines (fun g => rsg_start g < 2 ^ 64 /\ rsg_end g < 2 ^ 64)%N); [|now split].
    intros g o g' (H1 & H2) E. now apply rsg_agrees.
  - intros n s fuel out Hn Hs. apply loop_refines. intros (g, o) r E.
    destruct (lwg_next g) as [(it & g')| |] eqn:E1; cbn [bind] in E; try discriminate. rewrite (lwg_agrees _ _ _ E1). cbn [bind].
    destruct it as [w|]; [|exact E].
    assert (EL : forall acc l, for_in w (fun x s => c <- add_u8 x 97 ;; Ok (s ++ [c])) acc = Ok l -> l = acc ++ wrap97 w).
    { clear. induction w as [|x w IH]; intros acc l E; cbn [for_in] in E; [injection E as <-; now rewrite app_nil_r|].
      unfold add_u8 in E at 1. destruct (Nat.leb_spec 256 (x + 97)); cbn [bind] in E; [discriminate|].
      apply IH in E. rewrite E, <- app_assoc. cbn [wrap97 map app]. now rewrite Nat.mod_small by lia. }
    destruct (for_in w _ []) as [l| |] eqn:E2; cbn [bind] in E; try discriminate. rewrite (EL [] l E2) in E. exact E.
Qed.
Print Assumptions C103_agrees.
(** BinaryStringGenerator: letter number i is bit number (i mod 64) of the number of the call, whatever the length ... *)
Theorem C103_binary : forall len k, (N.of_nat k < 2 ^ 64)%N ->
  calls bsg_next_release k (bsg_new len) =
    Ok (map (fun r => Some (map (fun i => if N.testbit (N.of_nat r) (N.of_nat (i mod 64)) then 49 else 48) (seq 0 len))) (seq 0 k)).
Proof.
  intros len k Hk. change (2 ^ 64)%N with 18446744073709551616%N in Hk. rewrite bsg_release_calls by lia. reflexivity.
Qed.
Print Assumptions C103_binary.
(** ... so that for lengths above 64 most strings are missing: letters 64 apart are equal (the checked build panics) *)
Theorem C103_binary_long_refuted : forall len k w L i, (N.of_nat k < 2 ^ 64)%N -> calls bsg_next_release k (bsg_new len) = Ok L ->
  In (Some w) L -> i + 64 < len -> nth i w 0 = nth (i + 64) w 0.
Proof.
  intros len k w L i Hk E Hw Hi. rewrite C103_binary in E by exact Hk. apply (f_equal (fun r => match r with Ok x => x | _ => [] end)) in E. cbv beta iota in E. subst L. apply in_map_iff in Hw.
  destruct Hw as (r & Ew & _). apply (f_equal (fun o => match o with Some x => x | None => [] end)) in Ew. cbv beta iota in Ew. subst w. rewrite (nth_map _ _ i 0), (nth_map _ _ (i + 64) 0) by (rewrite seq_length; lia).
  rewrite !seq_nth by lia. rewrite !Nat.add_0_l. assert (EM : (i + 64) mod 64 = i mod 64).
  { change (i + 64) with (i + 1 * 64). now rewrite Nat.mod_add by lia. } now rewrite EM.
Qed.
Print Assumptions C103_binary_long_refuted.
(** LyndonWordGenerator with an alphabet size that is not 1..256: the same words for all of them, and without end ... *)
Theorem C103_lyndon_other_sizes : forall n s k, 1 <= n -> s = 0 \/ 256 < s ->
  exists L, calls lwg_next_release k (lwg_new n s) = Ok (map Some L) /\ length L = k /\
    forall j, j < k -> nth j L [] = if j =? 0 then [0] else repeat 0 (n - 1) ++ [j mod 256].
Proof.
  intros n s k Hn Hs. exists (map (odd_word n) (seq 0 k)). rewrite lwg_release_calls by auto. rewrite map_map.
  split; [reflexivity|]. split; [now rewrite map_length, seq_length|]. intros j Hj.
  rewrite (nth_map _ _ _ 0) by (rewrite seq_length; lia). rewrite seq_nth by lia. reflexivity.
Qed.
Print Assumptions C103_lyndon_other_sizes.
(** ... among them words that are no Lyndon words; the checked build yields the first 256 of them and panics (s > 256) *)
Theorem C103_lyndon_large_refuted : forall n s, 2 <= n -> 256 < s ->
  (exists L, calls lwg_next_release 257 (lwg_new n s) = Ok L /\ In (Some (repeat 0 n)) L /\ ~ lyndon (repeat 0 n)) /\
  (forall k, calls lwg_next k (lwg_new n s) = if k <=? 256 then calls lwg_next_release k (lwg_new n s) else Panic).
Proof.
  intros n s Hn Hs. split.
  - exists (map (fun j => Some (odd_word n j)) (seq 0 257)). split; [apply lwg_release_calls; lia|]. split.
    + apply in_map_iff. exists 256. split; [|apply in_seq; lia]. f_equal. unfold odd_word. cbn [Nat.eqb]. change (256 mod 256) with 0.
      change [0] with (repeat 0 1). rewrite <- repeat_app. f_equal. lia.
    + intros (_ & H). specialize (H (repeat 0 1) (repeat 0 (n - 1))). rewrite <- repeat_app in H.
      replace (1 + (n - 1)) with n in H by lia. specialize (H eq_refl ltac:(discriminate) ltac:(destruct (n - 1) eqn:E; [lia|discriminate])).
      assert (G : forall a b, b < a -> ~ lex_lt (repeat 0 a) (repeat 0 b)).
      { clear. induction a as [|a IH]; intros b Hb HL; [lia|]. destruct b as [|b]; [inversion HL|]. cbn [repeat] in HL.
        inversion HL; subst; [lia|]. apply (IH b); [lia|assumption]. }
      apply (G n (n - 1)); [lia|exact H].
  - intros k. rewrite lwg_large_calls by lia. rewrite lwg_release_calls by lia. reflexivity.
Qed.
Print Assumptions C103_lyndon_large_refuted.
(** lyndonwords: one line per Lyndon word for every alphabet size up to 256, but the letter codes wrap around ... *)
Theorem C103_lyndonwords : forall n s, 1 <= n -> 1 <= s <= 256 ->
  exists L, (forall fuel, length L < fuel -> lyndonwords_main_release fuel n s = Ok (lines (map (map (fun x => (x + 97) mod 256)) L))) /\
   StronglySorted lex_lt L /\ (forall w, In w L <-> lyndon w /\ length w <= n /\ Forall (fun c => c < s) w).
Proof.
  intros n s Hn Hs. destruct (lwg_correct n s Hn Hs) as (L & HS & HI & HC). exists L. split; [|auto].
  intros fuel Hf. apply (lw_loop_release L (lwg_new n s) []); [|exact Hf]. now apply lwg_release_yields.
Qed.
Print Assumptions C103_lyndonwords.
(** ... so that from 170 letters on the lines can no longer be told apart: there are more newlines than words *)
Theorem C103_lyndonwords_lines_refuted : forall n s, 1 <= n -> 170 <= s <= 256 ->
  exists L out, (forall w, In w L <-> lyndon w /\ length w <= n /\ Forall (fun c => c < s) w) /\ NoDup L /\
    (forall fuel, length L < fuel -> lyndonwords_main_release fuel n s = Ok out) /\
    length L < count_occ Nat.eq_dec out 10.
Proof.
  intros n s Hn Hs. destruct (C103_lyndonwords n s Hn ltac:(lia)) as (L & HO & HS & HI). exists L. eexists. split; [exact HI|].
  split; [apply (SSorted_NoDup lex_lt); [apply lex_lt_irrefl|exact HS]|]. split; [exact HO|].
  assert (H1 : In [169] L).
  { apply HI. split; [apply lyndon_single|]. split; [simpl; lia|]. constructor; [lia|constructor]. }
  assert (G : forall M : list str, length M <= count_occ Nat.eq_dec (lines (map (map (fun x => (x + 97) mod 256)) M)) 10 /\
    (In [169] M -> length M < count_occ Nat.eq_dec (lines (map (map (fun x => (x + 97) mod 256)) M)) 10)).
  { induction M as [|w M (IH1 & IH2)]; [split; [simpl; lia|intros []]|]. unfold lines, newline in *. cbn [map concat length].
    rewrite !count_occ_app. cbn [count_occ]. destruct (Nat.eq_dec 10 10); [|lia]. split; [lia|]. intros [->|HM]; [|specialize (IH2 HM); lia].
    cbn [map]. change ((169 + 97) mod 256) with 10. cbn [count_occ]. destruct (Nat.eq_dec 10 10); lia. }
  apply G. exact H1.
Qed.
Print Assumptions C103_lyndonwords_lines_refuted.
(** RandomStringGenerator: from the counter value 2^63 on the doubled counter wraps, and None is not returned any more; once the
    counter has reached the end of the range the same 128 letters are yielded for ever (a branch the checked build never takes) *)
Theorem C103_random_wraps : forall a e l k, (2 ^ 63 <= a < 2 ^ 64)%N -> (e < 2 ^ 64)%N -> (a * 2 < 2 ^ 64 + e)%N -> (l <> 0)%N ->
  rsg_next (RSG a e l) = Panic /\
  exists L, calls rsg_next_release k (RSG a e l) = Ok (map Some L) /\ length L = k /\
    forall j, j < k -> (N.of_nat j < e - a)%N /\ (exists u, nth j L [] = u ++ [0]) \/
                       (e - a <= N.of_nat j)%N /\ nth j L [] = repeat 1 128.
Proof.
  intros a e l k Ha He Hae Hl. change (2 ^ 63)%N with 9223372036854775808%N in *. change (2 ^ 64)%N with 18446744073709551616%N in *.
  split.
  { unfold rsg_next. cbn [rsg_start]. destruct (N.leb_spec 18446744073709551616 (a * 2)); [reflexivity|lia]. }
  revert a Ha Hae. induction k as [|k IH]; intros a Ha Hae; [exists []; split; [reflexivity|]; split; [reflexivity|intros; lia]|].
  assert (Hm : (a * 2 mod 18446744073709551616 = a * 2 - 18446744073709551616)%N).
  { replace (a * 2)%N with (a * 2 - 18446744073709551616 + 1 * 18446744073709551616)%N at 1 by lia. rewrite N.mod_add by lia. apply N.mod_small. lia. }
  destruct (rsg_release_some a e l) as (w & E & H1 & H2 & _).
  { change (2 ^ 64)%N with 18446744073709551616%N. lia. } { exact He. }
  { change (2 ^ 64)%N with 18446744073709551616%N. rewrite Hm. lia. } { exact Hl. }
  cbn [calls]. rewrite E. cbn [bind].
  destruct (N.leb_spec e a) as [C|C].
  - destruct (IH a Ha Hae) as (L & -> & HL & HN). cbn [bind]. exists (w :: L). split; [reflexivity|]. split; [cbn [length]; lia|].
    intros j Hj. right. split; [lia|]. destruct j as [|j]; [cbn [nth]; now apply H1|]. cbn [nth].
    destruct (HN j ltac:(lia)) as [(A & _)|(_ & B)]; [lia|exact B].
  - destruct (IH (a + 1)%N ltac:(lia) ltac:(lia)) as (L & -> & HL & HN). cbn [bind]. exists (w :: L). split; [reflexivity|].
    split; [cbn [length]; lia|]. intros j Hj. destruct j as [|j]; [left; split; [lia|cbn [nth]; now apply H2]|]. cbn [nth].
    destruct (HN j ltac:(lia)) as [(A & B)|(A & B)]; [left; split; [lia|exact B]|right; split; [lia|exact B]].
Qed.
Print Assumptions C103_random_wraps.
(** letters of more than 64 bits: the checked build panics, the release build yields the string of the sentinel only; letters of 0
    bits panic in both *)
Theorem C103_random_letter_sizes : forall a e l, (a * 2 < e < 2 ^ 64)%N ->
  (rsg_next (RSG a e 0) = Panic /\ rsg_next_release (RSG a e 0) = Panic) /\
  ((64 < l)%N -> rsg_next (RSG a e l) = Panic /\ rsg_next_release (RSG a e l) = Ok (Some [0], RSG (a + 1) e l)).
Proof.
  intros a e l Ha. change (2 ^ 64)%N with 18446744073709551616%N in *. split; [split|].
  - unfold rsg_next. cbn [rsg_start rsg_end rsg_log]. destruct (N.leb_spec 18446744073709551616 (a * 2)); [reflexivity|].
    destruct (N.leb_spec e (a * 2)); [lia|]. destruct (N.leb_spec e a); [lia|]. reflexivity.
  - unfold rsg_next_release. cbn [rsg_start rsg_end rsg_log]. rewrite (N.mod_small (a * 2)) by lia.
    destruct (N.leb_spec e (a * 2)); [lia|]. destruct (N.leb_spec e a); [lia|]. reflexivity.
  - intros Hl. split.
    + unfold rsg_next. cbn [rsg_start rsg_end rsg_log]. destruct (N.leb_spec 18446744073709551616 (a * 2)); [reflexivity|].
      destruct (N.leb_spec e (a * 2)); [lia|]. destruct (N.leb_spec e a); [lia|]. cbv zeta. destruct (N.ltb_spec 64 l); [reflexivity|lia].
    + destruct (rsg_release_some a e l) as (w & E & _ & _ & H); change (2 ^ 64)%N with 18446744073709551616%N; try lia.
      * rewrite N.mod_small by lia. lia.
      * rewrite E. destruct (N.leb_spec e a); [lia|]. rewrite H by lia. reflexivity.
Qed.
Print Assumptions C103_random_letter_sizes.
Example C103_case :
  calls bsg_next_release 3 (bsg_new 65) = Ok [Some (repeat 48 65); Some (49 :: repeat 48 63 ++ [49]); Some ([48;49] ++ repeat 48 63)] /\
  calls lwg_next_release 4 (lwg_new 2 0) = Ok [Some [0]; Some [0;1]; Some [0;2]; Some [0;3]] /\
  calls rsg_next_release 2 (RSG (2 ^ 63 + 5) 100 2) = Ok [Some (repeat 1 128); Some (repeat 1 128)] /\
  lyndonwords_main_release 9 3 2 = lyndonwords_main 9 3 2.
Proof. vm_compute. repeat split. Qed.
