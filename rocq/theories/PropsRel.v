(** PropsRel.v : property theorem C109: the numbers printed by count_z for related texts. [sort] stands for cdivsufsort;
    [naive_sort] is an instance. *)
From Verif Require Import Base SpecStr SpecIo SpecLz LexFacts PermFacts SortFacts ModelLz ModelMain LzRel LzEdit PropsLz.
From Coq Require Import NArith.

Lemma z_spec sort t : (forall t, is_suffix_array t (sort t)) -> t <> [] -> bytes t -> (N.of_nat (length t) < 2^32)%N ->
  exists fs, count_z_main sort t = Ok fs /\ parsable t 0 (length fs) /\ (forall k, parsable t 0 k -> length fs <= k) /\ is_lz77_parsing t 0 fs.
Proof.
  intros Hs Hne Hb Hn. destruct (C37_lz77_minimal sort t Hs Hne Hb Hn) as (fs & E & P & M).
  destruct (C36_lz77_longest_previous_factors sort t Hs Hne Hb Hn) as (gs & E' & Q & _).
  rewrite E in E'. injection E' as <-. exists fs. auto.
Qed.
Lemma bytes_app t u : bytes (t ++ u) <-> bytes t /\ bytes u.
Proof. apply Forall_app. Qed.
(** C109: continuing a text. All factors but the last one keep their lengths; the count never decreases and grows at
    most by the count of the continuation *)
Theorem C109_continuation : forall sort t u, (forall t, is_suffix_array t (sort t)) -> t <> [] -> u <> [] -> bytes (t ++ u) ->
  (N.of_nat (length (t ++ u)) < 2^32)%N ->
  exists ft fu fg, count_z_main sort t = Ok ft /\ count_z_main sort u = Ok fu /\ count_z_main sort (t ++ u) = Ok fg /\
    length ft <= length fg <= length ft + length fu /\ length fu <= length u /\
    exists ls, map lz_len fg = removelast (map lz_len ft) ++ ls.
Proof.
  intros sort t u Hs Ht Hu Hb Hn. apply bytes_app in Hb as Hb2. destruct Hb2 as (Hb1 & Hb2).
  assert (Lt : (N.of_nat (length t) < 2^32)%N) by (eapply N.le_lt_trans; [|exact Hn]; rewrite app_length; lia).
  assert (Lu : (N.of_nat (length u) < 2^32)%N) by (eapply N.le_lt_trans; [|exact Hn]; rewrite app_length; lia).
  assert (Hne : t ++ u <> []) by (destruct t; [contradiction|discriminate]).
  destruct (z_spec sort t Hs Ht Hb1 Lt) as (ft & E1 & P1 & M1 & Q1).
  destruct (z_spec sort u Hs Hu Hb2 Lu) as (fu & E2 & P2 & M2 & _).
  destruct (z_spec sort (t ++ u) Hs Hne Hb Hn) as (fg & E3 & P3 & M3 & Q3).
  clear Lt Lu Hn. exists ft, fu, fg. split; [exact E1|]. split; [exact E2|]. split; [exact E3|]. split; [split|split].
  - destruct (prefix_parsable t u 0 (length fg) P3 ltac:(lia)) as (k & L & P). specialize (M1 k P). lia.
  - apply M3. apply concat_parsable; [exact P1|]. pose proof (shift_parsable t u 0 _ P2) as P. now rewrite Nat.add_0_r in P.
  - apply M2. pose proof (literals_parsable u 0 ltac:(lia)) as P. now rewrite Nat.sub_0_r in P.
  - exact (parsing_prefix t u ft 0 fg Q1 Q3).
Qed.
Print Assumptions C109_continuation.
(** repeating a text costs at most one more factor *)
Theorem C109_repetition : forall sort t m, (forall t, is_suffix_array t (sort t)) -> t <> [] -> bytes t -> 1 <= m ->
  (N.of_nat (length (power t m)) < 2^32)%N ->
  exists ft fg, count_z_main sort t = Ok ft /\ count_z_main sort (power t m) = Ok fg /\ length ft <= length fg <= length ft + 1.
Proof.
  intros sort t m Hs Ht Hb Hm Hn. destruct m as [|m]; [exfalso; clear Hn; lia|]. clear Hm.
  assert (Hb2 : bytes (power t (S m))).
  { clear Hn. generalize (S m). intros k. induction k as [|k IH]; [constructor|]. cbn [power]. apply bytes_app. auto. }
  assert (Lt : (N.of_nat (length t) < 2^32)%N).
  { eapply N.le_lt_trans; [|exact Hn]. clear Hn. cbn [power]. rewrite app_length. lia. }
  assert (Hne : power t (S m) <> []) by (clear Hn Lt; cbn [power]; destruct t; [contradiction|discriminate]).
  destruct (z_spec sort t Hs Ht Hb Lt) as (ft & E1 & P1 & M1 & _).
  destruct (z_spec sort (power t (S m)) Hs Hne Hb2 Hn) as (fg & E3 & P3 & M3 & _).
  clear Lt Hn. exists ft, fg. split; [exact E1|]. split; [exact E3|]. split.
  - cbn [power] in P3. destruct (prefix_parsable t _ 0 (length fg) P3 ltac:(lia)) as (k & L & P). specialize (M1 k P). lia.
  - destruct (power_parsable t m _ Ht P1) as (k & L & P). specialize (M3 k P). lia.
Qed.
Print Assumptions C109_repetition.
(** removing the first letter can at most double the count; putting one in front adds at most one *)
Theorem C109_first_letter : forall sort c t, (forall t, is_suffix_array t (sort t)) -> t <> [] -> bytes (c :: t) ->
  (N.of_nat (length (c :: t)) < 2^32)%N ->
  exists ft fg, count_z_main sort t = Ok ft /\ count_z_main sort (c :: t) = Ok fg /\
    length ft + 2 <= 2 * length fg /\ length fg <= length ft + 1.
Proof.
  intros sort c t Hs Ht Hb Hn.
  assert (Hb2 : bytes t) by (now inversion Hb).
  assert (Lt : (N.of_nat (length t) < 2^32)%N).
  { eapply N.le_lt_trans; [|exact Hn]. clear Hn. cbn [length]. lia. }
  destruct (z_spec sort t Hs Ht Hb2 Lt) as (ft & E1 & P1 & M1 & _).
  destruct (z_spec sort (c :: t) Hs ltac:(discriminate) Hb Hn) as (fg & E3 & P3 & M3 & _).
  clear Lt Hn. exists ft, fg. split; [exact E1|]. split; [exact E3|]. split.
  - destruct (drop_first_parsable c t _ Ht P3) as (k & L & P). specialize (M1 k P). lia.
  - apply M3. rewrite Nat.add_1_r. apply parse_literal; [cbn; lia|]. exact (shift_parsable [c] t 0 _ P1).
Qed.
Print Assumptions C109_first_letter.
(** replacing a block u by another one v: at most (|u| + 2) z + |v| + 1 *)
Theorem C109_block_replaced : forall sort x u v y, (forall t, is_suffix_array t (sort t)) ->
  x ++ u ++ y <> [] -> x ++ v ++ y <> [] -> bytes (x ++ u ++ y) -> bytes v ->
  (N.of_nat (length (x ++ u ++ y)) < 2^32)%N -> (N.of_nat (length (x ++ v ++ y)) < 2^32)%N ->
  exists fs gs, count_z_main sort (x ++ u ++ y) = Ok fs /\ count_z_main sort (x ++ v ++ y) = Ok gs /\
    length gs <= (length u + 2) * length fs + length v + 1.
Proof.
  intros sort x u v y Hs N1 N2 Hb Hv Hn1 Hn2.
  assert (Hb2 : bytes (x ++ v ++ y)) by (rewrite !bytes_app in *; tauto).
  destruct (z_spec sort _ Hs N1 Hb Hn1) as (fs & E1 & P1 & M1 & _).
  destruct (z_spec sort _ Hs N2 Hb2 Hn2) as (gs & E2 & P2 & M2 & _).
  clear Hn1 Hn2. exists fs, gs. split; [exact E1|]. split; [exact E2|].
  destruct (edit_x x u v y 0 _ P1 ltac:(lia)) as (k & L & P). specialize (M2 k P). lia.
Qed.
Print Assumptions C109_block_replaced.
(** so a byte put in anywhere gives at most 2 z + 2 factors, a byte taken out at most 3 z + 1 *)
Theorem C109_one_byte_more_or_less : forall sort x c y, (forall t, is_suffix_array t (sort t)) ->
  x ++ y <> [] -> bytes (x ++ c :: y) -> (N.of_nat (length (x ++ c :: y)) < 2^32)%N ->
  exists fs gs, count_z_main sort (x ++ y) = Ok fs /\ count_z_main sort (x ++ c :: y) = Ok gs /\
    length gs <= 2 * length fs + 2 /\ length fs <= 3 * length gs + 1.
Proof.
  intros sort x c y Hs N1 Hb Hn.
  assert (N2 : x ++ c :: y <> []) by (destruct x; discriminate).
  assert (Hb' : bytes (x ++ y) /\ bytes [c]).
  { apply bytes_app in Hb. destruct Hb as (B1 & B2). inversion B2; subst. split; [now apply bytes_app|now constructor]. }
  assert (Hn' : (N.of_nat (length (x ++ y)) < 2^32)%N).
  { eapply N.le_lt_trans; [|exact Hn]. clear Hn. rewrite !app_length. cbn [length]. lia. }
  destruct (C109_block_replaced sort x [] [c] y Hs N1 N2 (proj1 Hb') (proj2 Hb') Hn' Hn) as (fs & gs & E1 & E2 & L).
  destruct (C109_block_replaced sort x [c] [] y Hs N2 N1 Hb ltac:(constructor) Hn Hn') as (gs' & fs' & E3 & E4 & L').
  cbn [app] in *. rewrite E2 in E3. injection E3 as <-. rewrite E1 in E4. injection E4 as <-. clear Hn Hn'.
  exists fs, gs. cbn [length] in *. split; [exact E1|]. split; [exact E2|]. lia.
Qed.
Print Assumptions C109_one_byte_more_or_less.
(** changing one byte at most triples the count, plus two *)
Theorem C109_one_byte_changed : forall sort u c d v, (forall t, is_suffix_array t (sort t)) -> bytes (u ++ c :: v) -> d < 256 ->
  (N.of_nat (length (u ++ c :: v)) < 2^32)%N ->
  exists fs gs, count_z_main sort (u ++ c :: v) = Ok fs /\ count_z_main sort (u ++ d :: v) = Ok gs /\
    length gs <= 3 * length fs + 2 /\ length fs <= 3 * length gs + 2.
Proof.
  intros sort u c d v Hs Hb Hd Hn.
  assert (El : length (u ++ d :: v) = length (u ++ c :: v)) by (clear Hn; rewrite !app_length; reflexivity).
  assert (Hb2 : bytes (u ++ d :: v)).
  { apply bytes_app in Hb. apply bytes_app. split; [apply Hb|]. constructor; [exact Hd|]. destruct Hb as (_ & Hb). now inversion Hb. }
  assert (Hn2 : (N.of_nat (length (u ++ d :: v)) < 2^32)%N) by (rewrite El; exact Hn).
  destruct (z_spec sort (u ++ c :: v) Hs ltac:(destruct u; discriminate) Hb Hn) as (fs & E1 & P1 & M1 & _).
  destruct (z_spec sort (u ++ d :: v) Hs ltac:(destruct u; discriminate) Hb2 Hn2) as (gs & E2 & P2 & M2 & _).
  clear Hn Hn2. exists fs, gs. split; [exact E1|]. split; [exact E2|].
  assert (Hp : length u < length (u ++ c :: v)) by (rewrite app_length; cbn [length]; lia).
  assert (HX : forall a b x, x <> length u -> nth x (u ++ a :: v) 0 = nth x (u ++ b :: v) 0).
  { intros a b x Hx. destruct (Nat.lt_ge_cases x (length u)) as [C|C]; [now rewrite !app_nth1 by auto|].
    rewrite !app_nth2 by auto. destruct (x - length u) eqn:E; [lia|reflexivity]. }
  split.
  - destruct (edit_parsable (u ++ c :: v) (u ++ d :: v) (length u) El Hp (HX d c) 0 _ P1) as (k & L & P). cbn [Nat.leb] in L. specialize (M2 k P). lia.
  - destruct (edit_parsable (u ++ d :: v) (u ++ c :: v) (length u) (eq_sym El) ltac:(lia) (HX c d) 0 _ P2) as (k & L & P). cbn [Nat.leb] in L. specialize (M1 k P). lia.
Qed.
Print Assumptions C109_one_byte_changed.
(** the other readings are false: a suffix or the reversed text can need more factors, and for count_r and count_lexparse
    already a prefix can have the larger number, a concatenation more than the sum *)
Theorem C109_others_refuted :
  let z t := match count_z_main naive_sort t with Ok fs => length fs | _ => 0 end in
  let v t := match count_lexparse_main naive_sort t with Ok fs => length fs | _ => 0 end in
  let r t := match count_r_main naive_sort true t 0 false false with Ok (_, r) => r | _ => 0 end in
  let aba := [97;98;97] in
  (z [97;97;97;98;97;97;97] = 4 /\ z [97;97;98;97;97;97] = 5) /\
  (z [97;97;97;98;97;97] = 4 /\ z (rev [97;97;97;98;97;97]) = 5) /\
  (r (aba ++ [98]) = 3 /\ r aba = 4) /\ (r ([97;97] ++ [98;98]) = 5 /\ r [97;97] = 2 /\ r [98;98] = 2) /\
  (v ([97;97;97;98;97;97] ++ [97]) = 4 /\ v [97;97;97;98;97;97] = 5) /\
  (v ([97;98;97;97;97;98] ++ [98]) = 6 /\ v [97;98;97;97;97;98] = 4 /\ v [98] = 1).
Proof. vm_compute. repeat split. Qed.
Print Assumptions C109_others_refuted.
Example C109_case : exists fs gs hs, count_z_main naive_sort [97;98;97;98] = Ok fs /\ count_z_main naive_sort [97;98;97;98;97;97;98;98] = Ok gs /\
  count_z_main naive_sort [97;97;98;98] = Ok hs /\ map lz_len fs = [0;0;2] /\ map lz_len gs = [0;0;3;2;1] /\ length hs = 4.
Proof. vm_compute. do 3 eexists. repeat split. Qed.
